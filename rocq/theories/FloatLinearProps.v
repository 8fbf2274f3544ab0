(** C82: linear interpolation in double precision. *)
From Coq Require Import List Reals Bool Arith ZArith Lia Lra Psatz.
From Coq.Floats Require Import SpecFloat.
From Flocq Require Import Core Relative BinarySingleNaN.
From Verif Require Import Base FloatModel FloatProofs FloatRoundSpec FloatRound FloatErr FloatRoundProps FloatUniformProps FloatGridModel FloatGridProps FloatPolyModel FloatLinearModel.
Import ListNotations.
Open Scope R_scope.
#[local] Existing Instance FloatRound.Hprec.
#[local] Existing Instance FloatRound.Hmax.
Notation u := u64.
Notation eta := eta64.

(** ** Specification *)
(** The line through two points *)
Definition line (l r yl yr x : R) : R := yl + (yr - yl) / (r - l) * (x - l).
Definition pt (l : list spec_float) (i : nat) : spec_float := nth i l S754_nan.
(** Finite numbers of moderate size *)
Definition moderate (a : spec_float) : Prop := valid a /\ fin a /\ Rabs (val a) <= 2 ^ 300.
Definition finite_all (l : list spec_float) : Prop := forall i, (i < length l)%nat -> valid (pt l i) /\ fin (pt l i).
Definition increasing (l : list spec_float) : Prop := forall i, (S i < length l)%nat -> val (pt l i) < val (pt l (S i)).
(** [x] belongs to piece [i] *)
Definition in_piece (xs : list spec_float) (i : nat) (x : R) : Prop := (val (pt xs i) < x \/ i = 0%nat /\ val (pt xs 0) = x) /\ x <= val (pt xs (S i)).

(** ** One piece *)
Lemma rb n r : Rabs r <= 2 ^ n -> Rabs (rnd64 r) <= 2 ^ n.
Proof.
  intros H. assert (B : forall m, 2 ^ m = bpow radix2 (Z.of_nat m)) by (intros m; rewrite bpow_powerRZ, <- pow_powerRZ; reflexivity).
  assert (A : rnd64 (2 ^ n) = 2 ^ n) by (rewrite B; apply round_generic; [apply valid_rnd_N|]; apply generic_format_bpow; unfold FLT_exp; lia).
  apply Rabs_le_inv in H. destruct H as [H1 H2]. apply rnd_mono in H1, H2. unfold rnd64 in H1 at 1. rewrite round_NE_opp in H1. fold (rnd64 (2 ^ n)) in H1. rewrite A in H1, H2. now apply Rabs_le.
Qed.
Lemma rno n r : (n < 1024)%nat -> Rabs r <= 2 ^ n -> no_overflow r.
Proof. intros H B. unfold no_overflow. eapply Rle_lt_trans; [apply rb, B|]. apply Rlt_pow; [lra|exact H]. Qed.
Lemma pow_sum n a b : Rabs a <= 2 ^ n -> Rabs b <= 2 ^ n -> Rabs (a + b) <= 2 ^ S n /\ Rabs (a - b) <= 2 ^ S n.
Proof.
  intros A B. cbn [pow]. assert (T1 := Rabs_triang a b). assert (T2 := Rabs_triang a (- b)). rewrite Rabs_Ropp in T2. unfold Rminus. revert A B T1 T2. generalize (2 ^ n). intros. lra.
Qed.
Lemma pow_prod n m a b : Rabs a <= 2 ^ n -> Rabs b <= 2 ^ m -> Rabs (a * b) <= 2 ^ (n + m).
Proof. intros A B. rewrite pow_add, Rabs_mult. apply Rmult_le_compat; auto using Rabs_pos. Qed.
Lemma pow_up n m a : (n <= m)%nat -> Rabs a <= 2 ^ n -> Rabs a <= 2 ^ m.
Proof. intros H A. eapply Rle_trans; [exact A|]. apply Rle_pow; [lra|exact H]. Qed.
Lemma sub_b' n a b : (n < 1023)%nat -> valid a -> valid b -> fin a -> fin b -> Rabs (val a) <= 2 ^ n -> Rabs (val b) <= 2 ^ n ->
  valid (fsub a b) /\ fin (fsub a b) /\ val (fsub a b) = rnd64 (val a - val b) /\ Rabs (val (fsub a b)) <= 2 ^ S n /\ Rabs (val (fsub a b) - (val a - val b)) <= u * Rabs (val a - val b).
Proof.
  intros H Va Vb Fa Fb A B. destruct (pow_sum n _ _ A B) as [_ D]. assert (F : fin (fsub a b)) by (apply (sub_ok a b Va Vb); split; [exact Fa|]; split; [exact Fb|]; apply (rno (S n)); [lia|exact D]).
  assert (E := proj2 (sub_ok a b Va Vb) F). split; [now apply valid_sub|]. split; [exact F|]. split; [exact E|]. rewrite E. split; [now apply rb|].
  assert (R := rnd_plus _ _ (val_format a Va) (generic_format_opp _ _ _ (val_format b Vb))). rewrite Rplus_0_r in R. exact R.
Qed.
Lemma add_b' n a b : (n < 1023)%nat -> valid a -> valid b -> fin a -> fin b -> Rabs (val a) <= 2 ^ n -> Rabs (val b) <= 2 ^ n ->
  valid (fadd a b) /\ fin (fadd a b) /\ Rabs (val (fadd a b) - (val a + val b)) <= u * Rabs (val a + val b).
Proof.
  intros H Va Vb Fa Fb A B. destruct (pow_sum n _ _ A B) as [D _]. assert (F : fin (fadd a b)) by (apply (add_ok a b Va Vb); split; [exact Fa|]; split; [exact Fb|]; apply (rno (S n)); [lia|exact D]).
  split; [now apply valid_add|]. split; [exact F|]. rewrite (proj2 (add_ok a b Va Vb) F). assert (R := rnd_plus _ _ (val_format a Va) (val_format b Vb)). rewrite Rplus_0_r in R. exact R.
Qed.
Lemma mul_b' n m a b : (n + m < 1024)%nat -> valid a -> valid b -> fin a -> fin b -> Rabs (val a) <= 2 ^ n -> Rabs (val b) <= 2 ^ m ->
  valid (fmul a b) /\ fin (fmul a b) /\ Rabs (val (fmul a b)) <= 2 ^ (n + m) /\ Rabs (val (fmul a b) - val a * val b) <= u * Rabs (val a * val b) + eta.
Proof.
  intros H Va Vb Fa Fb A B. assert (D := pow_prod n m _ _ A B). assert (F : fin (fmul a b)) by (apply (mul_ok a b Va Vb); split; [exact Fa|]; split; [exact Fb|]; now apply (rno (n + m))).
  split; [now apply valid_mul|]. split; [exact F|]. rewrite (proj2 (mul_ok a b Va Vb) F). split; [now apply rb|apply rnd_error].
Qed.
Lemma slope_real N D n d s : 0 < D -> 0 < d -> Rabs (n - N) <= u * Rabs N -> Rabs (d - D) <= u * D -> Rabs (s - n / d) <= u * Rabs (n / d) + eta -> Rabs (s - N / D) <= 4 * u * Rabs (N / D) + eta.
Proof.
  intros HD Hd En Ed Es. assert (U := u_lt). destruct u_eta as (_ & _ & U3). set (S := N / D) in *. set (q := n / d) in *. set (c := d / D).
  assert (Hc : 1 - u <= c <= 1 + u). { assert (Ec : c * D = d) by (unfold c; field; lra). apply Rabs_le_inv in Ed. split; apply Rmult_le_reg_r with D; try exact HD; rewrite Ec; lra. }
  assert (Q : Rabs (q * c - S) <= u * Rabs S).
  { replace (q * c - S) with ((n - N) * / D) by (unfold q, c, S; field; lra). unfold S, Rdiv. rewrite !Rabs_mult, <- Rmult_assoc. apply Rmult_le_compat_r; [apply Rabs_pos|exact En]. }
  assert (K : Rabs (q - S) <= (2 * u + 4 * u * u) * Rabs S).
  { assert (K1 : Rabs ((q - S) * c) <= 2 * u * Rabs S).
    { replace ((q - S) * c) with ((q * c - S) + S * (1 - c)) by ring. eapply Rle_trans; [apply Rabs_triang|]. rewrite Rabs_mult. assert (Rabs (1 - c) <= u) by (apply Rabs_le; lra). assert (Rabs S * Rabs (1 - c) <= Rabs S * u) by (apply Rmult_le_compat_l; [apply Rabs_pos|assumption]). lra. }
    rewrite Rabs_mult, (Rabs_pos_eq c) in K1 by lra. assert (P := Rabs_pos (q - S)). assert (PS := Rabs_pos S). set (a := Rabs (q - S)) in *. set (b := Rabs S) in *. assert (K2 : a * (1 - u) <= 2 * u * b) by nra.
    apply Rmult_le_reg_r with (1 - u); [lra|]. eapply Rle_trans; [exact K2|]. replace ((2 * u + 4 * u * u) * b * (1 - u)) with (2 * u * b + (2 * u * u - 4 * u * u * u) * b) by ring. assert (0 <= (2 * u * u - 4 * u * u * u) * b) by (apply Rmult_le_pos; [nra|exact PS]). lra. }
  assert (Bq : Rabs q <= (1 + 3 * u) * Rabs S). { replace q with (S + (q - S)) by ring. eapply Rle_trans; [apply Rabs_triang|]. assert (PS := Rabs_pos S). assert (UU : (2 * u + 4 * u * u) * Rabs S <= 3 * u * Rabs S) by (apply Rmult_le_compat_r; [exact PS|]; nra). lra. }
  replace (s - S) with ((s - q) + (q - S)) by ring. eapply Rle_trans; [apply Rabs_triang|]. assert (PS := Rabs_pos S). assert (u * Rabs q <= u * ((1 + 3 * u) * Rabs S)) by (apply Rmult_le_compat_l; lra). assert (UU : (2 * u + 4 * u * u + u * (1 + 3 * u)) * Rabs S <= 4 * u * Rabs S) by (apply Rmult_le_compat_r; [exact PS|]; nra). lra.
Qed.
Lemma piece_real S s l x yl a1 o a3 v X : Rabs l <= X -> Rabs x <= X -> Rabs (s - S) <= 4 * u * Rabs S + eta ->
  Rabs (a1 - s * l) <= u * Rabs (s * l) + eta -> Rabs (o - (yl - a1)) <= u * Rabs (yl - a1) -> Rabs (a3 - s * x) <= u * Rabs (s * x) + eta -> Rabs (v - (a3 + o)) <= u * Rabs (a3 + o) ->
  Rabs (v - (yl + S * (x - l))) <= 16 * u * (Rabs yl + Rabs S * X) + 4 * eta * (X + 1).
Proof.
  intros Hl Hx Es E1 Eo E3 Ev. assert (U := u_lt). assert (N := eta_lt). destruct u_eta as (_ & _ & U3). assert (PX : 0 <= X) by (eapply Rle_trans; [apply Rabs_pos|exact Hl]).
  assert (PS := Rabs_pos S). assert (PY := Rabs_pos yl). set (Y := Rabs yl) in *. set (P := Rabs S * X). set (T := eta * X). assert (P0 : 0 <= P) by (apply Rmult_le_pos; assumption). assert (T0 : 0 <= T) by (apply Rmult_le_pos; lra).
  set (A := Rabs s * X). assert (HA : A <= (1 + 4 * u) * P + T).
  { unfold A, P, T. assert (Rabs s <= (1 + 4 * u) * Rabs S + eta) by (replace s with (S + (s - S)) by ring; eapply Rle_trans; [apply Rabs_triang|]; lra). assert (Rabs s * X <= ((1 + 4 * u) * Rabs S + eta) * X) by (apply Rmult_le_compat_r; lra). lra. }
  assert (A0 : 0 <= A) by (apply Rmult_le_pos; [apply Rabs_pos|exact PX]).
  assert (L1 : Rabs (s * l) <= A) by (rewrite Rabs_mult; apply Rmult_le_compat_l; [apply Rabs_pos|exact Hl]). assert (L3 : Rabs (s * x) <= A) by (rewrite Rabs_mult; apply Rmult_le_compat_l; [apply Rabs_pos|exact Hx]).
  assert (U1 : u * Rabs (s * l) <= u * A) by (apply Rmult_le_compat_l; lra). assert (U2 : u * Rabs (s * x) <= u * A) by (apply Rmult_le_compat_l; lra).
  set (B := (1 + u) * A + eta). assert (B1 : Rabs a1 <= B) by (unfold B; replace a1 with (s * l + (a1 - s * l)) by ring; eapply Rle_trans; [apply Rabs_triang|]; lra). assert (B3 : Rabs a3 <= B) by (unfold B; replace a3 with (s * x + (a3 - s * x)) by ring; eapply Rle_trans; [apply Rabs_triang|]; lra).
  assert (D1 : Rabs (yl - a1) <= Y + B) by (unfold Rminus; eapply Rle_trans; [apply Rabs_triang|]; rewrite Rabs_Ropp; unfold Y; lra). assert (D2 : u * Rabs (yl - a1) <= u * (Y + B)) by (apply Rmult_le_compat_l; lra).
  assert (Bo : Rabs o <= (1 + u) * (Y + B)) by (replace o with ((yl - a1) + (o - (yl - a1))) by ring; eapply Rle_trans; [apply Rabs_triang|]; lra).
  assert (D3 : Rabs (a3 + o) <= B + (1 + u) * (Y + B)) by (eapply Rle_trans; [apply Rabs_triang|]; lra). assert (D4 : u * Rabs (a3 + o) <= u * (B + (1 + u) * (Y + B))) by (apply Rmult_le_compat_l; lra).
  assert (D5 : Rabs (s - S) * Rabs (x - l) <= (4 * u * Rabs S + eta) * (2 * X)).
  { apply Rmult_le_compat; try apply Rabs_pos; [exact Es|]. unfold Rminus. eapply Rle_trans; [apply Rabs_triang|]. rewrite Rabs_Ropp. lra. }
  replace ((4 * u * Rabs S + eta) * (2 * X)) with (8 * (u * P) + 2 * T) in D5 by (unfold P, T; ring).
  replace (v - (yl + S * (x - l))) with ((v - (a3 + o)) + (o - (yl - a1)) + (a3 - s * x) + - (a1 - s * l) + (s - S) * (x - l)) by ring.
  assert (TR : forall a b c d e, Rabs (a + b + c + - d + e) <= Rabs a + Rabs b + Rabs c + Rabs d + Rabs e).
  { intros. rewrite <- (Rabs_Ropp d). repeat (eapply Rle_trans; [apply Rabs_triang|]; apply Rplus_le_compat_r). apply Rle_refl. }
  eapply Rle_trans; [apply TR|]. rewrite (Rabs_mult (s - S)).
  assert (Q : forall z, 0 <= z -> 0 <= u * z /\ u * (u * z) <= / 1024 * (u * z) /\ u * z <= / 1024 * z).
  { intros z Hz. assert (0 <= u * z) by (apply Rmult_le_pos; lra). split; [assumption|]. split; apply Rmult_le_compat_r; lra. }
  assert (HA' : u * A <= u * ((1 + 4 * u) * P + T)) by (apply Rmult_le_compat_l; lra).
  destruct (Q P P0) as (q1 & q2 & q3). destruct (Q Y PY) as (q4 & q5 & q6). destruct (Q T T0) as (q7 & q8 & q9). destruct (Q eta ltac:(lra)) as (q10 & q11 & q12). destruct (Q A A0) as (q13 & q14 & q15).
  destruct (Q (u * A) q13) as (q16 & q17 & q18). destruct (Q (u * eta) q10) as (q19 & q20 & q21).
  unfold B in *. replace (4 * eta * (X + 1)) with (4 * T + 4 * eta) by (unfold T; ring). replace (16 * u * (Y + P)) with (16 * (u * Y) + 16 * (u * P)) by ring.
  replace (u * ((1 + 4 * u) * P + T)) with (u * P + 4 * (u * (u * P)) + u * T) in HA' by ring.
  replace (u * (Y + ((1 + u) * A + eta))) with (u * Y + u * A + u * (u * A) + u * eta) in D2 by ring.
  replace (u * ((1 + u) * A + eta + (1 + u) * (Y + ((1 + u) * A + eta)))) with (2 * (u * A) + 3 * (u * (u * A)) + u * (u * (u * A)) + 2 * (u * eta) + u * (u * eta) + u * Y + u * (u * Y)) in D4 by ring.
  lra.
Qed.
Lemma piece_ok l r yl yr x X : moderate l -> moderate r -> moderate yl -> moderate yr -> moderate x -> / 2 ^ 300 <= val r - val l -> Rabs (val l) <= X -> Rabs (val x) <= X ->
  let v := fpeval (flinear_piece l r yl yr) x in
  valid v /\ fin v /\ Rabs (val v - line (val l) (val r) (val yl) (val yr) (val x)) <= 16 * u * (Rabs (val yl) + Rabs ((val yr - val yl) / (val r - val l)) * X) + 4 * eta * (X + 1).
Proof.
  intros (Vl & Fl & Bl) (Vr & Fr & Br) (Vy & Fy & By) (Vz & Fz & Bz) (Vx & Fx & Bx) G Hl Hx v.
  destruct (sub_b' 300 yr yl ltac:(lia) Vz Vy Fz Fy Bz By) as (Vn & Fn & En & Bn & An). destruct (sub_b' 300 r l ltac:(lia) Vr Vl Fr Fl Br Bl) as (Vd & Fd & Ed & Bd & Ad).
  assert (P0 : 0 < / 2 ^ 300) by (apply Rinv_0_lt_compat, pow_lt; lra). assert (D0 : 0 < val r - val l) by exact (Rlt_le_trans _ _ _ P0 G).
  assert (Gd : / 2 ^ 300 <= val (fsub r l)).
  { rewrite Ed. assert (E : rnd64 (/ 2 ^ 300) = / 2 ^ 300). { assert (B : / 2 ^ 300 = bpow radix2 (- (300))) by (rewrite bpow_opp; change 300%Z with (Z.of_nat 300); rewrite bpow_powerRZ, <- pow_powerRZ; reflexivity). rewrite B. apply round_generic; [apply valid_rnd_N|]. apply generic_format_bpow. unfold FLT_exp. lia. }
    rewrite <- E. now apply rnd_mono. }
  assert (d0 : 0 < val (fsub r l)) by exact (Rlt_le_trans _ _ _ P0 Gd). rewrite (Rabs_pos_eq (val r - val l)) in Ad by now apply Rlt_le.
  assert (I : Rabs (/ val (fsub r l)) <= 2 ^ 300). { rewrite Rabs_pos_eq by (apply Rlt_le, Rinv_0_lt_compat, d0). rewrite <- (Rinv_involutive (2 ^ 300)) by (apply Rgt_not_eq, pow_lt; lra). apply Rinv_le_contravar; assumption. }
  assert (Bq := pow_prod 301 300 _ _ Bn I). change (Rabs (val (fsub yr yl) / val (fsub r l)) <= 2 ^ 601) in Bq.
  destruct (div_ok (fsub yr yl) (fsub r l) Vn Vd Fn (Rgt_not_eq _ _ d0)) as [C1 C2]. assert (Fs : fin (fdiv (fsub yr yl) (fsub r l))) by (apply C1, (rno 601); [lia|exact Bq]).
  assert (Vs : valid (fdiv (fsub yr yl) (fsub r l))) by now apply valid_div. specialize (C2 Fs). set (s := fdiv (fsub yr yl) (fsub r l)) in *.
  assert (Bs : Rabs (val s) <= 2 ^ 601) by (rewrite C2; now apply rb). assert (Es : Rabs (val s - val (fsub yr yl) / val (fsub r l)) <= u * Rabs (val (fsub yr yl) / val (fsub r l)) + eta) by (rewrite C2; apply rnd_error).
  assert (SR := slope_real _ _ _ _ _ D0 d0 An Ad Es).
  destruct (mul_b' 601 300 s l ltac:(lia) Vs Vl Fs Fl Bs Bl) as (V1 & F1 & B1 & E1). destruct (mul_b' 601 300 s x ltac:(lia) Vs Vx Fs Fx Bs Bx) as (V3 & F3 & B3 & E3).
  destruct (sub_b' (601 + 300) yl (fmul s l) ltac:(lia) Vy V1 Fy F1 (pow_up 300 (601 + 300) _ ltac:(lia) By) B1) as (Vo & Fo & _ & Bo & Eo).
  destruct (add_b' (S (601 + 300)) (fmul s x) (fsub yl (fmul s l)) ltac:(lia) V3 Vo F3 Fo (pow_up (601 + 300) (S (601 + 300)) _ ltac:(lia) B3) Bo) as (Vv & Fv & Ev).
  change (fadd (fmul s x) (fsub yl (fmul s l))) with v in *. split; [exact Vv|]. split; [exact Fv|]. unfold line. eapply piece_real; eassumption.
Qed.

(** ** Pieces *)
Lemma pieces_len xs : forall ys, length (flinear_pieces xs ys) = (Nat.min (length xs) (length ys) - 1)%nat.
Proof.
  induction xs as [|l xs IH]; intros [|y ys]; try reflexivity. cbn [flinear_pieces]. destruct xs as [|r xs]; [reflexivity|]. destruct ys as [|z ys]; [cbn; lia|]. cbn [length]. rewrite IH. cbn [length]. lia.
Qed.
Lemma pieces_nth xs : forall ys i, (S i < length xs)%nat -> (S i < length ys)%nat -> nth i (flinear_pieces xs ys) [] = flinear_piece (pt xs i) (pt xs (S i)) (pt ys i) (pt ys (S i)).
Proof.
  induction xs as [|l xs IH]; intros [|y ys] i H1 H2; cbn [length] in *; try lia. destruct xs as [|r xs]; [cbn in H1; lia|]. destruct ys as [|z ys]; [cbn in H2; lia|].
  destruct i as [|i]; [reflexivity|]. change (nth i (flinear_pieces (r :: xs) (z :: ys)) [] = flinear_piece (pt (r :: xs) i) (pt (r :: xs) (S i)) (pt (z :: ys) i) (pt (z :: ys) (S i))). apply IH; cbn [length] in *; lia.
Qed.
(** Points are accepted if there are at least as many values; more values are ignored. A single point is accepted as well, but then no value can be computed. *)
Theorem C82_construct : forall xs ys,
  ((1 <= length xs)%nat -> (length xs <= length ys \/ length xs = 1)%nat -> exists f, ffrom_points xs ys = Ok f /\ fw_xs f = xs /\ length (fw_fns f) = (length xs - 1)%nat) /\
  (xs = [] \/ (length xs <> 1 /\ length ys < length xs)%nat -> ffrom_points xs ys = Err ValueError) /\
  (forall f x, ffrom_points xs ys = Ok f -> length xs = 1%nat -> fpw_eval f x = Err IndexError).
Proof.
  intros xs ys. unfold ffrom_points. rewrite pieces_len. split; [|split].
  - intros H K. destruct (Nat.eqb_spec (Nat.min (length xs) (length ys) - 1 + 1) (length xs)) as [E|E]; [|lia]. eexists. split; [reflexivity|]. split; [reflexivity|]. cbn [fw_fns]. rewrite pieces_len. lia.
  - intros [->|[H K]]; [reflexivity|]. destruct (Nat.eqb_spec (Nat.min (length xs) (length ys) - 1 + 1) (length xs)) as [E|E]; [|reflexivity]. destruct xs; [cbn in K; lia|]. cbn [length] in *. lia.
  - intros f x E L. destruct (Nat.eqb_spec (Nat.min (length xs) (length ys) - 1 + 1) (length xs)) as [Q|Q]; [|discriminate E]. apply ok_inj in E. subst f. unfold fpw_eval. cbn [fw_xs]. rewrite L. reflexivity.
Qed.
Lemma fold_pick {A} (c : nat -> bool) (g : nat -> A) i l : forall acc, In i l -> (forall j, In j l -> c j = true <-> j = i) -> fold_left (fun r j => if c j then g j else r) l acc = g i.
Proof.
  assert (K : forall l acc, (forall j, In j l -> c j = true <-> j = i) -> acc = g i -> fold_left (fun r j => if c j then g j else r) l acc = g i).
  { clear l. induction l as [|j l IH]; intros acc H E; [exact E|]. cbn [fold_left]. apply IH; [intros; apply H; now right|]. destruct (c j) eqn:C; [|exact E]. apply H in C; [|now left]. now subst. }
  induction l as [|j l IH]; intros acc Hi H; [contradiction|]. cbn [fold_left]. destruct (Nat.eq_dec j i) as [->|N].
  - apply K; [intros; apply H; now right|]. rewrite (proj2 (H i (or_introl eq_refl)) eq_refl). reflexivity.
  - destruct Hi as [Hi|Hi]; [congruence|]. apply IH; [exact Hi|]. intros; apply H; now right.
Qed.
Lemma fold_none {A} (c : nat -> bool) (g : nat -> A) l : forall acc, (forall j, In j l -> c j = false) -> fold_left (fun r j => if c j then g j else r) l acc = acc.
Proof. induction l as [|j l IH]; intros acc H; [reflexivity|]. cbn [fold_left]. rewrite (H j) by now left. apply IH. intros; apply H; now right. Qed.
Lemma cond_ok xs x i : finite_all xs -> valid x -> fin x -> (S i < length xs)%nat -> fcond xs x i = true <-> in_piece xs i (val x).
Proof.
  intros F Vx Fx Hi. unfold fcond, in_piece. fold (pt xs 0) (pt xs 1) (pt xs i) (pt xs (i + 1)). replace (i + 1)%nat with (S i) by lia. destruct (F i ltac:(lia)) as [Vi Gi], (F (S i) Hi) as [Vj Gj].
  destruct (Nat.eqb_spec i 0) as [->|N]; rewrite andb_true_iff, ?leb_val, ?ltb_val by assumption.
  - destruct (Rle_bool_spec (val (pt xs 0)) (val x)), (Rle_bool_spec (val x) (val (pt xs 1))); (split; [intros [? ?]; try discriminate|intros [K ?]]); try (split; [|assumption]); try (split; reflexivity); try lra.
    destruct (Rle_lt_or_eq_dec _ _ H); [now left|right; now split].
  - destruct (Rlt_bool_spec (val (pt xs i)) (val x)), (Rle_bool_spec (val x) (val (pt xs (S i)))); (split; [intros [? ?]; try discriminate|intros [[K|[K ?]] ?]]); try contradiction; try (split; [now left|assumption]); try (split; reflexivity); try lra.
Qed.
Lemma incr_le xs : increasing xs -> forall i j, (i <= j < length xs)%nat -> val (pt xs i) <= val (pt xs j).
Proof. intros H i j [H1 H2]. induction H1 as [|j H1 IH]; [lra|]. assert (K := H j H2). specialize (IH ltac:(lia)). lra. Qed.
Lemma piece_unique xs i j x : increasing xs -> (S i < length xs)%nat -> (S j < length xs)%nat -> in_piece xs i x -> in_piece xs j x -> i = j.
Proof.
  assert (W : forall i j, increasing xs -> (S i < length xs)%nat -> (S j < length xs)%nat -> in_piece xs i x -> in_piece xs j x -> (i < j)%nat -> False).
  { clear i j. intros i j H Hi Hj [_ B] [A _] L. assert (K := incr_le xs H (S i) j ltac:(lia)). destruct A as [A|[-> _]]; [lra|lia]. }
  intros H Hi Hj A B. destruct (lt_eq_lt_dec i j) as [[L|E]|L]; [exfalso; eapply (W i j); eassumption|exact E|exfalso; eapply (W j i); eassumption].
Qed.
(** The piece of a point is found exactly: lower ends belong to the piece before, and both ends of the interval are included. *)
Theorem C82_select : forall xs ys f x i, ffrom_points xs ys = Ok f -> finite_all xs -> increasing xs -> valid x -> fin x -> (S i < length xs)%nat -> in_piece xs i (val x) ->
  fpw_eval f x = Ok (fpeval (flinear_piece (pt xs i) (pt xs (S i)) (pt ys i) (pt ys (S i))) x).
Proof.
  intros xs ys f x i E F H Vx Fx Hi P. unfold ffrom_points in E. rewrite pieces_len in E. destruct (Nat.eqb_spec (Nat.min (length xs) (length ys) - 1 + 1) (length xs)) as [L|]; [|discriminate E]. apply ok_inj in E. subst f.
  unfold fpw_eval. cbn [fw_xs fw_fns]. destruct (Nat.ltb_spec (length xs) 2); [lia|]. f_equal. rewrite pieces_len, <- pieces_nth by lia.
  apply (fold_pick (fcond xs x) (fun j => fpeval (nth j (flinear_pieces xs ys) []) x)); [apply in_seq; lia|]. intros j Hj. apply in_seq in Hj. rewrite cond_ok by (try assumption; lia). split; [|now intros ->].
  intros Q. eapply piece_unique; [eassumption| | |eassumption|eassumption]; lia.
Qed.
(** Outside the points the value is 0. *)
Theorem C82_outside : forall xs ys f x, ffrom_points xs ys = Ok f -> finite_all xs -> increasing xs -> valid x -> fin x -> (2 <= length xs)%nat ->
  val x < val (pt xs 0) \/ val (pt xs (length xs - 1)) < val x -> fpw_eval f x = Ok fzero.
Proof.
  intros xs ys f x E F H Vx Fx H2 K. unfold ffrom_points in E. rewrite pieces_len in E. destruct (Nat.eqb_spec (Nat.min (length xs) (length ys) - 1 + 1) (length xs)) as [L|]; [|discriminate E]. apply ok_inj in E. subst f.
  unfold fpw_eval. cbn [fw_xs fw_fns]. destruct (Nat.ltb_spec (length xs) 2); [lia|]. f_equal. rewrite pieces_len.
  apply (fold_none (fcond xs x) (fun j => fpeval (nth j (flinear_pieces xs ys) []) x)). intros j Hj. apply in_seq in Hj. apply not_true_iff_false. rewrite cond_ok by (try assumption; lia). intros [A B].
  assert (M1 := incr_le xs H 0%nat j ltac:(lia)). assert (M2 := incr_le xs H (S j) (length xs - 1)%nat ltac:(lia)). destruct A as [A|[_ A]]; lra.
Qed.
(** The same holds at both infinities. *)
Theorem C82_infinite : forall xs ys f b, ffrom_points xs ys = Ok f -> finite_all xs -> (2 <= length xs)%nat -> fpw_eval f (S754_infinity b) = Ok fzero.
Proof.
  intros xs ys f b E F H2. unfold ffrom_points in E. rewrite pieces_len in E. destruct (Nat.eqb_spec (Nat.min (length xs) (length ys) - 1 + 1) (length xs)) as [L|]; [|discriminate E]. apply ok_inj in E. subst f.
  unfold fpw_eval. cbn [fw_xs fw_fns]. destruct (Nat.ltb_spec (length xs) 2); [lia|]. f_equal. rewrite pieces_len.
  apply (fold_none (fcond xs (S754_infinity b)) (fun j => fpeval (nth j (flinear_pieces xs ys) []) (S754_infinity b))). intros j Hj. apply in_seq in Hj.
  assert (Q : forall k, (k < length xs)%nat -> SFleb (nth k xs S754_nan) (S754_infinity true) = false /\ SFltb (nth k xs S754_nan) (S754_infinity true) = false /\ SFleb (S754_infinity false) (nth k xs S754_nan) = false).
  { intros k Hk. destruct (F k Hk) as [_ A]. unfold pt in A. destruct (nth k xs S754_nan) as [[|]|[|]| |[|] m e]; try discriminate A; try contradiction A; repeat split. }
  unfold fcond. destruct b; destruct (Nat.eqb_spec j 0); apply andb_false_iff; try (left; apply Q; lia); right; apply Q; lia.
Qed.
(** NaN satisfies no condition: its value is 0, not NaN. *)
Theorem C82_nan : forall f, (2 <= length (fw_xs f))%nat -> fpw_eval f S754_nan = Ok fzero.
Proof.
  intros f H. unfold fpw_eval. destruct (Nat.ltb_spec (length (fw_xs f)) 2); [lia|]. f_equal. apply (fold_none (fcond (fw_xs f) S754_nan) (fun j => fpeval (nth j (fw_fns f) []) S754_nan)). intros j _. unfold fcond. destruct (j =? 0)%nat; [destruct (nth 0 (fw_xs f) S754_nan)|destruct (nth j (fw_xs f) S754_nan)]; reflexivity.
Qed.
(** The value is finite and close to the line through the two points; the error is relative to the values and to the slope times the points. *)
Theorem C82_accuracy : forall xs ys f x i, ffrom_points xs ys = Ok f -> List.Forall moderate xs -> List.Forall moderate ys -> valid x -> fin x ->
  (forall j, (S j < length xs)%nat -> / 2 ^ 300 <= val (pt xs (S j)) - val (pt xs j)) -> (S i < length xs)%nat -> in_piece xs i (val x) ->
  let l := val (pt xs i) in let r := val (pt xs (S i)) in let yl := val (pt ys i) in let yr := val (pt ys (S i)) in
  exists v, fpw_eval f x = Ok v /\ fin v /\
    Rabs (val v - line l r yl yr (val x)) <= / 2 ^ 49 * (Rabs yl + Rabs ((yr - yl) / (r - l)) * Rmax (Rabs l) (Rabs r)) + / 2 ^ 1073 * (Rmax (Rabs l) (Rabs r) + 1).
Proof.
  intros xs ys f x i E Mx My Vx Fx G Hi P l r yl yr.
  assert (Ly : (S i < length ys)%nat). { unfold ffrom_points in E. rewrite pieces_len in E. destruct (Nat.eqb_spec (Nat.min (length xs) (length ys) - 1 + 1) (length xs)) as [L|]; [lia|discriminate E]. }
  assert (MX : forall j, (j < length xs)%nat -> moderate (pt xs j)) by (intros j Hj; rewrite Forall_forall in Mx; apply Mx, nth_In, Hj). assert (MY : forall j, (j < length ys)%nat -> moderate (pt ys j)) by (intros j Hj; rewrite Forall_forall in My; apply My, nth_In, Hj).
  assert (F : finite_all xs) by (intros j Hj; destruct (MX j Hj) as (A & B & _); split; assumption).
  assert (H : increasing xs). { intros j Hj. specialize (G j Hj). assert (P0 : 0 < / 2 ^ 300) by (apply Rinv_0_lt_compat, pow_lt; lra). apply Rminus_lt. revert G P0. generalize (/ 2 ^ 300). intros; lra. }
  eexists. split; [apply (C82_select xs ys f x i); eassumption|]. set (X := Rmax (Rabs l) (Rabs r)).
  assert (B : Rabs (val x) <= X).
  { assert (Q : l <= val x <= r) by (destruct P as [[A|[-> A]] B]; unfold l, r; split; lra). unfold X. assert (M1 := Rmax_l (Rabs l) (Rabs r)). assert (M2 := Rmax_r (Rabs l) (Rabs r)). assert (A1 := Rle_abs r). assert (A2 := Rle_abs (- l)). rewrite Rabs_Ropp in A2. apply Rabs_le. lra. }
  assert (Mxx : moderate x). { split; [exact Vx|]. split; [exact Fx|]. eapply Rle_trans; [exact B|]. apply Rmax_lub; [apply (MX i ltac:(lia))|apply (MX (S i) Hi)]. }
  destruct (piece_ok (pt xs i) (pt xs (S i)) (pt ys i) (pt ys (S i)) x X (MX i ltac:(lia)) (MX _ Hi) (MY i ltac:(lia)) (MY _ Ly) Mxx (G i Hi) (Rmax_l _ _) B) as (_ & Fv & A). split; [exact Fv|].
  eapply Rle_trans; [exact A|]. fold l r yl yr. assert (E16 : 16 * u = / 2 ^ 49) by (unfold u64; cbn; lra).
  assert (E4 : 4 * eta = / 2 ^ 1073). { unfold eta64. change 1075%nat with (2 + 1073)%nat. rewrite pow_add. rewrite Rinv_mult_distr by (apply pow_nonzero; lra). cbn [Nat.add]. replace (2 ^ 2) with 4 by (cbn; lra). rewrite <- Rmult_assoc, Rinv_r by lra. apply Rmult_1_l. }
  rewrite E16, E4. apply Rle_refl.
Qed.
(** Equal values are reproduced exactly. *)
Theorem C82_constant : forall xs ys f x i, ffrom_points xs ys = Ok f -> List.Forall moderate xs -> List.Forall moderate ys -> valid x -> fin x ->
  (forall j, (S j < length xs)%nat -> / 2 ^ 300 <= val (pt xs (S j)) - val (pt xs j)) -> (S i < length xs)%nat -> in_piece xs i (val x) ->
  val (pt ys i) = val (pt ys (S i)) -> exists v, fpw_eval f x = Ok v /\ fin v /\ val v = val (pt ys i).
Proof.
  intros xs ys f x i E Mx My Vx Fx G Hi P Y.
  assert (Ly : (S i < length ys)%nat). { unfold ffrom_points in E. rewrite pieces_len in E. destruct (Nat.eqb_spec (Nat.min (length xs) (length ys) - 1 + 1) (length xs)) as [L|]; [lia|discriminate E]. }
  assert (MX : forall j, (j < length xs)%nat -> moderate (pt xs j)) by (intros j Hj; rewrite Forall_forall in Mx; apply Mx, nth_In, Hj). assert (MY : forall j, (j < length ys)%nat -> moderate (pt ys j)) by (intros j Hj; rewrite Forall_forall in My; apply My, nth_In, Hj).
  assert (F : finite_all xs) by (intros j Hj; destruct (MX j Hj) as (A & B & _); split; assumption).
  assert (P0 : 0 < / 2 ^ 300) by (apply Rinv_0_lt_compat, pow_lt; lra).
  assert (H : increasing xs). { intros j Hj. specialize (G j Hj). apply Rminus_lt. revert G P0. generalize (/ 2 ^ 300). intros; lra. }
  eexists. split; [apply (C82_select xs ys f x i); eassumption|].
  assert (Z : rnd64 0 = 0) by (apply round_0, valid_rnd_N). assert (Z1 : 0 < 2 ^ 1024) by (apply pow_lt; lra). assert (NO : no_overflow 0) by (unfold no_overflow; rewrite Z, Rabs_R0; exact Z1).
  destruct (MX i ltac:(lia)) as (Vl & Fl & Bl). destruct (MX (S i) Hi) as (Vr & Fr & Br). destruct (MY i ltac:(lia)) as (Vy & Fy & By). destruct (MY (S i) Ly) as (Vz & Fz & Bz). specialize (G i Hi).
  set (l := pt xs i) in *. set (r := pt xs (S i)) in *. set (yl := pt ys i) in *. set (yr := pt ys (S i)) in *.
  destruct (sub_b' 300 yr yl ltac:(lia) Vz Vy Fz Fy Bz By) as (Vn & Fn & En & _). destruct (sub_b' 300 r l ltac:(lia) Vr Vl Fr Fl Br Bl) as (Vd & Fd & _ & _ & Ad).
  rewrite Y, Rminus_diag_eq, Z in En by reflexivity. assert (D0 : 0 < val r - val l) by exact (Rlt_le_trans _ _ _ P0 G). rewrite (Rabs_pos_eq (val r - val l)) in Ad by now apply Rlt_le. assert (U := u_lt). destruct u_eta as (_ & _ & U3).
  assert (d0 : 0 < val (fsub r l)). { apply Rabs_le_inv in Ad. destruct Ad as [Ad _]. clear - Ad D0 U3. nra. }
  destruct (div_ok (fsub yr yl) (fsub r l) Vn Vd Fn (Rgt_not_eq _ _ d0)) as [C1 C2]. unfold Rdiv in C1, C2. rewrite En, Rmult_0_l in C1, C2. assert (Fs : fin (fdiv (fsub yr yl) (fsub r l))) by now apply C1. specialize (C2 Fs). rewrite Z in C2.
  assert (Vs : valid (fdiv (fsub yr yl) (fsub r l))) by now apply valid_div. set (s := fdiv (fsub yr yl) (fsub r l)) in *.
  assert (M : forall a, valid a -> fin a -> valid (fmul s a) /\ fin (fmul s a) /\ val (fmul s a) = 0).
  { intros a Va Fa. destruct (mul_ok s a Vs Va) as [K1 K2]. rewrite C2, Rmult_0_l in K1, K2. assert (Fm : fin (fmul s a)) by now apply K1. split; [now apply valid_mul|]. split; [exact Fm|]. now rewrite (K2 Fm). }
  destruct (M l Vl Fl) as (V1 & F1 & E1). destruct (M x Vx Fx) as (V3 & F3 & E3). assert (RY : rnd64 (val yl) = val yl) by (apply round_generic; [apply valid_rnd_N|now apply val_format]).
  destruct (sub_ok yl (fmul s l) Vy V1) as [S1 S2]. rewrite E1, Rminus_0_r in S1, S2. assert (NY : no_overflow (val yl)) by (apply (rno 300); [lia|exact By]). assert (Fo : fin (fsub yl (fmul s l))) by now apply S1. specialize (S2 Fo). rewrite RY in S2.
  assert (Vo : valid (fsub yl (fmul s l))) by now apply valid_sub. destruct (add_ok (fmul s x) (fsub yl (fmul s l)) V3 Vo) as [A1 A2]. rewrite E3, S2, Rplus_0_l in A1, A2. assert (Fv : fin (fadd (fmul s x) (fsub yl (fmul s l)))) by now apply A1.
  split; [exact Fv|]. etransitivity; [exact (A2 Fv)|exact RY].
Qed.
(** ** What fails *)
(** Interpolation is not exact, and the values can leave the range of the data: through (2^52, 0) and (2^52 + 1, 1/10) the value at 2^52 + 1 is 1/8. *)
Definition tenth : spec_float := fdiv (SFone 53 1024) (of_nat 10).
Theorem C82_range_refuted : let l := S754_finite false 4503599627370496 0 in let r := S754_finite false 4503599627370497 0 in
  exists f v, ffrom_points [l; r] [fzero; tenth] = Ok f /\ fpw_eval f r = Ok v /\ SFltb tenth v = true.
Proof. cbv zeta. eexists. eexists. split; [reflexivity|]. split; [vm_compute; reflexivity|]. vm_compute. reflexivity. Qed.
(** ** Example *)
Example C82_ex : let xs := map of_nat [0; 1; 3]%nat in let ys := map of_nat [5; 7; 4]%nat in
  exists f, ffrom_points xs ys = Ok f /\ List.Forall moderate xs /\ List.Forall moderate ys /\
  (forall j, (S j < length xs)%nat -> / 2 ^ 300 <= val (pt xs (S j)) - val (pt xs j)) /\ in_piece xs 1 (val (of_nat 2)) /\ fpw_eval f (of_nat 1) = Ok (of_nat 7).
Proof.
  assert (W : forall k, (k <= 10)%nat -> moderate (of_nat k) /\ val (of_nat k) = INR k).
  { intros k Hk. apply le_INR in Hk. replace (INR 10) with 10 in Hk by (cbn; lra). assert (T : 2 ^ 4 <= 2 ^ 53) by (apply Rle_pow; [lra|lia]). assert (T' : 2 ^ 4 <= 2 ^ 300) by (apply Rle_pow; [lra|lia]). assert (P4 : 2 ^ 4 = 16) by (cbn; lra). rewrite P4 in *.
    destruct (of_nat_ok k) as (V & F & E); [eapply Rle_trans; [|exact T]; lra|]. split; [|exact E]. split; [exact V|]. split; [exact F|]. rewrite E, Rabs_pos_eq by apply pos_INR. eapply Rle_trans; [|exact T']. lra. }
  intros xs ys. eexists. split; [reflexivity|]. split; [repeat (apply List.Forall_cons; [apply W; lia|]); apply List.Forall_nil|]. split; [repeat (apply List.Forall_cons; [apply W; lia|]); apply List.Forall_nil|]. split.
  - assert (S1 : / 2 ^ 300 <= 1) by (apply Rle_trans with (/ 1); [|rewrite Rinv_1; apply Rle_refl]; apply Rinv_le_contravar; [lra|]; apply pow_R1_Rle; lra).
    intros [|[|j]] Hj; [| |cbn in Hj; lia]; eapply Rle_trans; try exact S1; unfold pt, xs; cbn [map nth]; rewrite !(fun k H => proj2 (W k H)) by lia; cbn; lra.
  - split; [|vm_compute; reflexivity]. unfold in_piece, pt, xs. cbn [map nth]. rewrite !(fun k H => proj2 (W k H)) by lia. cbn. split; [left|]; lra.
Qed.
Print Assumptions C82_construct.
Print Assumptions C82_select.
Print Assumptions C82_outside.
Print Assumptions C82_infinite.
Print Assumptions C82_nan.
Print Assumptions C82_constant.
Print Assumptions C82_accuracy.
Print Assumptions C82_range_refuted.
