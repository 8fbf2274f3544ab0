(** Property theorems C08, C09 and C10. *)
From Coq Require Import List Reals Lra Lia Bool Arith ZArith.
From Coquelicot Require Import Coquelicot.
From Verif Require Import Base PiecewiseSpec FemModel FemSpec FemProofs FemIntegral FemStiff.
Import ListNotations.
Open Scope R_scope.

(** The nodes carrying a basis function: all grid points, or the interior ones
    when the boundary values are zero. *)
Definition node (grid : list R) (zb : bool) (i : nat) : R := nth (if zb then S i else i) grid 0.
Definition n_nodes (grid : list R) (zb : bool) : nat := if zb then length grid - 2 else length grid.

(** ** C08 *)
Lemma init_facts grid zb b : increasing grid -> basis_init grid zb = Ok b ->
  increasing (b_grid b) /\ (3 <= length (b_grid b))%nat /\ b_zero b = zb /\ b_len b = n_nodes grid zb /\
  (3 <= length grid)%nat /\ ((2 <= b_len b)%nat \/ b_zero b = true) /\
  (forall i, (i < b_len b)%nat -> at_ (b_grid b) (i + 1) = node grid zb i) /\
  dom_lo b = nth 0 grid 0 /\ dom_hi b = nth (length grid - 1) grid 0.
Proof.
  intros Hinc Hb. destruct (basis_init_spec grid zb) as (A & _ & C). destruct (C b Hb Hinc) as (C1 & C2 & C3 & C4 & C5).
  assert (L : (3 <= length grid)%nat).
  { destruct (le_lt_dec 3 (length grid)); [assumption|]. assert (basis_init grid zb = Err ValueError) by (apply A; assumption). congruence. }
  split; [exact C2|]. split; [exact C3|]. split; [exact C1|]. unfold b_len, n_nodes, node, at_, dom_lo, dom_hi. rewrite C1.
  destruct zb.
  - rewrite (C4 eq_refl). repeat split; auto. { intros i Hi. f_equal. lia. }
    unfold b_len, at_. rewrite (C4 eq_refl). f_equal. lia.
  - destruct (C5 eq_refl) as [D1 D2]. rewrite D1. repeat split; auto; try lia.
    + intros i Hi. apply D2. lia.
    + apply (D2 0%nat). lia.
    + unfold b_len, at_. rewrite D1. rewrite <- (D2 (length grid - 1)%nat) by lia. f_equal. lia.
Qed.

Lemma c08_construct grid zb :
  (forall e, basis_init grid zb = Err e -> e = ValueError) /\
  (basis_init grid zb = Err ValueError <-> (length grid < 3)%nat) /\
  (forall b, basis_init grid zb = Ok b -> increasing grid -> b_len b = n_nodes grid zb).
Proof.
  destruct (basis_init_spec grid zb) as (A & B & C). repeat split; [apply B|apply A|apply A|].
  intros b Hb Hinc. apply init_facts; assumption.
Qed.
Theorem C08_construct : forall grid zb,
  (forall e, basis_init grid zb = Err e -> e = ValueError) /\
  (basis_init grid zb = Err ValueError <-> (length grid < 3)%nat) /\
  (forall b, basis_init grid zb = Ok b -> increasing grid -> b_len b = n_nodes grid zb).
Proof. exact c08_construct. Qed.
Print Assumptions C08_construct.

Lemma c08_nonneg grid zb b : increasing grid -> basis_init grid zb = Ok b ->
  forall x i, (i < b_len b)%nat -> 0 <= basis_eval b x i.
Proof. intros Hinc Hb x i Hi. destruct (init_facts grid zb b Hinc Hb) as (A & B & _). now apply basis_eval_nonneg. Qed.
Theorem C08_nonnegative : forall grid zb b, increasing grid -> basis_init grid zb = Ok b ->
  forall x i, (i < b_len b)%nat -> 0 <= basis_eval b x i.
Proof. exact c08_nonneg. Qed.
Print Assumptions C08_nonnegative.

Lemma c08_nodes grid zb b : increasing grid -> basis_init grid zb = Ok b ->
  forall i j, (i < b_len b)%nat -> (j < b_len b)%nat ->
  basis_eval b (node grid zb j) i = if (i =? j)%nat then 1 else 0.
Proof.
  intros Hinc Hb i j Hi Hj. destruct (init_facts grid zb b Hinc Hb) as (A & B & _ & _ & _ & _ & D & _).
  rewrite <- D by exact Hj. now apply basis_eval_node.
Qed.
Theorem C08_nodes : forall grid zb b, increasing grid -> basis_init grid zb = Ok b ->
  forall i j, (i < b_len b)%nat -> (j < b_len b)%nat ->
  basis_eval b (node grid zb j) i = if (i =? j)%nat then 1 else 0.
Proof. exact c08_nodes. Qed.
Print Assumptions C08_nodes.

(** Inside the domain each element is the hat through its neighbouring grid
    points, so that the basis interpolates linearly between the nodes; outside
    the domain everything vanishes. *)
Lemma c08_between grid zb b : increasing grid -> basis_init grid zb = Ok b ->
  forall i k x, (i < b_len b)%nat -> (S k < length grid)%nat -> nth k grid 0 <= x <= nth (S k) grid 0 ->
  basis_eval b x i = interpolate (nth k grid 0) (nth (S k) grid 0)
     (if ((if zb then S i else i) =? k)%nat then 1 else 0) (if ((if zb then S i else i) =? S k)%nat then 1 else 0) x.
Proof.
  intros Hinc Hb i k x Hi Hk Hx. destruct (init_facts grid zb b Hinc Hb) as (A & B & Z & L & G3 & _ & D & D1 & D2).
  destruct (basis_init_spec grid zb) as (_ & _ & C). destruct (C b Hb Hinc) as (_ & _ & _ & C4 & C5).
  pose proof (Hinc k (S k) ltac:(lia)) as Hlt.
  assert (Dk : dom_lo b <= nth k grid 0 /\ nth (S k) grid 0 <= dom_hi b).
  { rewrite D1, D2. split.
    - destruct (Nat.eq_dec k 0) as [->|]; [lra|]. left. apply Hinc. lia.
    - destruct (Nat.eq_dec (S k) (length grid - 1)) as [->|]; [lra|]. left. apply Hinc. lia. }
  set (p := if zb then S i else i).
  assert (Hg : forall q, (q < length grid)%nat -> nth (q + (if zb then 0 else 1)) (b_grid b) 0 = nth q grid 0).
  { intros q Hq. destruct zb; [rewrite (C4 eq_refl); f_equal; lia|]. now apply (C5 eq_refl). }
  assert (Hbl : length (b_grid b) = (length grid + (if zb then 0 else 2))%nat).
  { destruct zb; [rewrite (C4 eq_refl); lia|]. now apply (C5 eq_refl). }
  rewrite (basis_eval_in b A B) by (try assumption; intros; lra). unfold at_.
  pose proof (A i (i + 1)%nat ltac:(unfold b_len in Hi; lia)) as H1.
  pose proof (A (i + 1)%nat (i + 2)%nat ltac:(unfold b_len in Hi; lia)) as H2.
  unfold interpolate.
  destruct (Nat.eqb_spec p k) as [E1|E1]; [|destruct (Nat.eqb_spec p (S k)) as [E2|E2]].
  - destruct (Nat.eqb_spec p (S k)); [lia|].
    assert (F1 : nth (i + 1) (b_grid b) 0 = nth k grid 0).
    { rewrite <- (Hg k) by lia. f_equal. unfold p in E1. destruct zb; lia. }
    assert (F2 : nth (i + 2) (b_grid b) 0 = nth (S k) grid 0).
    { rewrite <- (Hg (S k)) by lia. f_equal. unfold p in E1. destruct zb; lia. }
    rewrite hat_right by lra. rewrite F1, F2. field. lra.
  - assert (F1 : nth (i + 1) (b_grid b) 0 = nth (S k) grid 0).
    { rewrite <- (Hg (S k)) by lia. f_equal. unfold p in E2. destruct zb; lia. }
    assert (F2 : nth i (b_grid b) 0 = nth k grid 0).
    { rewrite <- (Hg k) by lia. f_equal. unfold p in E2. destruct zb; lia. }
    rewrite hat_left by lra. rewrite F1, F2. field. lra.
  - assert (Mono : forall s t, (s <= t)%nat -> (t < length (b_grid b))%nat -> nth s (b_grid b) 0 <= nth t (b_grid b) 0).
    { intros s t Hs Ht. destruct (Nat.eq_dec s t) as [->|]; [lra|]. left. apply A. lia. }
    rewrite hat_out; [field; lra|lra|lra|].
    destruct (lt_dec p k).
    + right. pose proof (Mono (i + 2)%nat (k + (if zb then 0 else 1))%nat ltac:(unfold p in *; destruct zb; lia) ltac:(destruct zb; lia)) as M.
      rewrite Hg in M by lia. lra.
    + left. pose proof (Mono (S k + (if zb then 0 else 1))%nat i ltac:(unfold p in *; destruct zb; lia) ltac:(unfold b_len in Hi; lia)) as M.
      rewrite Hg in M by lia. lra.
Qed.
Theorem C08_linear_between_nodes : forall grid zb b, increasing grid -> basis_init grid zb = Ok b ->
  forall i k x, (i < b_len b)%nat -> (S k < length grid)%nat -> nth k grid 0 <= x <= nth (S k) grid 0 ->
  basis_eval b x i = interpolate (nth k grid 0) (nth (S k) grid 0)
     (if ((if zb then S i else i) =? k)%nat then 1 else 0) (if ((if zb then S i else i) =? S k)%nat then 1 else 0) x.
Proof. exact c08_between. Qed.
Print Assumptions C08_linear_between_nodes.

Lemma c08_outside grid zb b : increasing grid -> basis_init grid zb = Ok b ->
  forall i x, (i < b_len b)%nat -> x < nth 0 grid 0 \/ nth (length grid - 1) grid 0 < x -> basis_eval b x i = 0.
Proof.
  intros Hinc Hb i x Hi Hx. destruct (init_facts grid zb b Hinc Hb) as (A & B & Z & L & G3 & _ & D & D1 & D2).
  apply basis_eval_out; try assumption. now rewrite D1, D2.
Qed.
Theorem C08_zero_outside : forall grid zb b, increasing grid -> basis_init grid zb = Ok b ->
  forall i x, (i < b_len b)%nat -> x < nth 0 grid 0 \/ nth (length grid - 1) grid 0 < x -> basis_eval b x i = 0.
Proof. exact c08_outside. Qed.
Print Assumptions C08_zero_outside.

(** [support_bounds] is the interval on which the element is positive. *)
Lemma c08_support grid zb b : increasing grid -> basis_init grid zb = Ok b ->
  forall idx i, (i < b_len b)%nat -> idx = Z.of_nat i \/ idx = (Z.of_nat i - Z.of_nat (b_len b))%Z ->
  exists lo hi, support_bounds b idx = Ok (lo, hi) /\
    nth 0 grid 0 <= lo < hi /\ hi <= nth (length grid - 1) grid 0 /\
    (forall x, lo < x < hi -> 0 < basis_eval b x i) /\
    (forall x, x < lo \/ hi < x -> basis_eval b x i = 0).
Proof.
  intros Hinc Hb idx i Hi Hidx. destruct (init_facts grid zb b Hinc Hb) as (A & B & Z & L & G3 & N2 & D & D1 & D2).
  exists (supp_lo b i), (supp_hi b i). split; [now apply support_bounds_ok|].
  destruct (supp_in_domain b A B i Hi N2) as (S1 & S2 & S3). rewrite D1 in S1. rewrite D2 in S3.
  repeat split; try assumption.
  - intros x. now apply support_ok.
  - intros x Hx. destruct (Req_EM_T (basis_eval b x i) 0) as [|Hne]; [assumption|].
    destruct (support_ok b A B i x Hi N2) as [S4 _]. specialize (S4 Hne). lra.
Qed.
Theorem C08_support : forall grid zb b, increasing grid -> basis_init grid zb = Ok b ->
  forall idx i, (i < b_len b)%nat -> idx = Z.of_nat i \/ idx = (Z.of_nat i - Z.of_nat (b_len b))%Z ->
  exists lo hi, support_bounds b idx = Ok (lo, hi) /\
    nth 0 grid 0 <= lo < hi /\ hi <= nth (length grid - 1) grid 0 /\
    (forall x, lo < x < hi -> 0 < basis_eval b x i) /\
    (forall x, x < lo \/ hi < x -> basis_eval b x i = 0).
Proof. exact c08_support. Qed.
Print Assumptions C08_support.

Lemma c08_elem grid zb b : increasing grid -> basis_init grid zb = Ok b ->
  forall idx i x, (i < b_len b)%nat -> idx = Z.of_nat i \/ idx = (Z.of_nat i - Z.of_nat (b_len b))%Z ->
  eval_elem b idx x = Ok (basis_eval b x i).
Proof.
  intros Hinc Hb idx i x Hi Hidx. destruct (init_facts grid zb b Hinc Hb) as (A & B & _). now apply eval_elem_ok.
Qed.
Theorem C08_eval_elem : forall grid zb b, increasing grid -> basis_init grid zb = Ok b ->
  forall idx i x, (i < b_len b)%nat -> idx = Z.of_nat i \/ idx = (Z.of_nat i - Z.of_nat (b_len b))%Z ->
  eval_elem b idx x = Ok (basis_eval b x i).
Proof. exact c08_elem. Qed.
Print Assumptions C08_eval_elem.

Lemma c08_bad_index b idx x : (idx < - Z.of_nat (b_len b) \/ Z.of_nat (b_len b) <= idx)%Z ->
  eval_elem b idx x = Err IndexError /\ support_bounds b idx = Err AssertionError.
Proof.
  intros H. split.
  - unfold eval_elem, py_index. destruct (Z.leb_spec 0 idx), (Z.ltb_spec idx (Z.of_nat (b_len b))); cbn; try lia;
    destruct (Z.leb_spec (- Z.of_nat (b_len b)) idx), (Z.ltb_spec idx 0); cbn; try lia; reflexivity.
  - unfold support_bounds. destruct (Z.leb_spec (- Z.of_nat (b_len b)) idx), (Z.ltb_spec idx (Z.of_nat (b_len b))); cbn; try lia; reflexivity.
Qed.
Theorem C08_bad_index : forall b idx x, (idx < - Z.of_nat (b_len b) \/ Z.of_nat (b_len b) <= idx)%Z ->
  eval_elem b idx x = Err IndexError /\ support_bounds b idx = Err AssertionError.
Proof. exact c08_bad_index. Qed.
Print Assumptions C08_bad_index.

Lemma c08_unity grid b : increasing grid -> basis_init grid false = Ok b ->
  forall x, nth 0 grid 0 <= x <= nth (length grid - 1) grid 0 -> sum_upto (b_len b) (basis_eval b x) = 1.
Proof.
  intros Hinc Hb x Hx. destruct (init_facts grid false b Hinc Hb) as (A & B & Z & L & G3 & N2 & D & D1 & D2).
  apply partition_of_unity; try assumption. unfold dom_lo, dom_hi in *. rewrite Z in *. lra.
Qed.
Theorem C08_partition_of_unity : forall grid b, increasing grid -> basis_init grid false = Ok b ->
  forall x, nth 0 grid 0 <= x <= nth (length grid - 1) grid 0 -> sum_upto (b_len b) (basis_eval b x) = 1.
Proof. exact c08_unity. Qed.
Print Assumptions C08_partition_of_unity.

Lemma incr3 : increasing [0; 1; 3].
Proof. intros i j Hij. cbn in Hij. destruct i as [|[|[|i]]], j as [|[|[|j]]]; try lia; cbn; lra. Qed.
Example C08_example : increasing [0; 1; 3] /\
  exists b, basis_init [0; 1; 3] false = Ok b /\ b_len b = 3%nat /\ basis_eval b (1/2) 1 = 1/2.
Proof.
  split; [exact incr3|]. destruct (basis_init [0;1;3] false) as [b|e] eqn:Eb; [|discriminate].
  exists b. split; [reflexivity|].
  destruct (init_facts [0;1;3] false b incr3 Eb) as (_ & _ & _ & L & _). split; [exact L|].
  rewrite (C08_linear_between_nodes [0;1;3] false b incr3 Eb 1 0 (1/2)); [|rewrite L; cbn; lia|cbn; lia|cbn; lra].
  unfold interpolate. cbn. field.
Qed.

(** ** C09 *)
Section C09.
Variables (grid : list R) (zb : bool) (b : basis).
Hypothesis Hinc : increasing grid.
Hypothesis Hb : basis_init grid zb = Ok b.

Lemma c09_mass i j : (i < b_len b)%nat -> (j < b_len b)%nat ->
  is_RInt (fun x => basis_eval b x i * basis_eval b x j) (nth 0 grid 0) (nth (length grid - 1) grid 0) (mass_matrix b i j).
Proof.
  intros Hi Hj. destruct (init_facts grid zb b Hinc Hb) as (A & B & Z & L & G3 & N2 & D & D1 & D2).
  rewrite <- D1, <- D2. now apply mass_matrix_int.
Qed.
Lemma c09_rhs c i : (i < b_len b)%nat ->
  is_RInt (fun x => c * basis_eval b x i) (nth 0 grid 0) (nth (length grid - 1) grid 0) (constant_rhs b c i).
Proof.
  intros Hi. destruct (init_facts grid zb b Hinc Hb) as (A & B & Z & L & G3 & N2 & D & D1 & D2).
  rewrite <- D1, <- D2. now apply constant_rhs_int.
Qed.
Lemma c09_quad f res : quad_rhs b f res -> forall i, (i < b_len b)%nat ->
  is_RInt (fun x => basis_eval b x i * f x) (nth 0 grid 0) (nth (length grid - 1) grid 0) (res i).
Proof.
  intros H i Hi. destruct (init_facts grid zb b Hinc Hb) as (A & B & Z & L & G3 & N2 & D & D1 & D2).
  destruct (H i Hi) as (lo & hi & Hs & HI).
  rewrite (support_bounds_ok b B (Z.of_nat i) i Hi (or_introl eq_refl) N2) in Hs. injection Hs as <- <-.
  rewrite <- D1, <- D2. apply support_int; try assumption.
  revert HI. apply (@is_RInt_ext R_NormedModule). intros x _.
  now rewrite (eval_elem_ok b A B (Z.of_nat i) i x Hi (or_introl eq_refl)).
Qed.
Lemma c09_unique res w w' : normalizer_gives b true res w -> normalizer_gives b true res w' ->
  forall i, (i < b_len b)%nat -> w i = w' i.
Proof.
  intros H H' i Hi. destruct (init_facts grid zb b Hinc Hb) as (A & B & Z & L & G3 & N2 & D & D1 & D2).
  assert (X : (fun j => w j - w' j) i = 0); [|lra].
  apply (mass_injective b A B N2 (fun j => w j - w' j)); [|exact Hi].
  intros k Hk. specialize (H k Hk). specialize (H' k Hk). cbn beta in H, H'.
  transitivity (sum_upto (b_len b) (fun j => mass_matrix b k j * w j) + sum_upto (b_len b) (fun j => -1 * (mass_matrix b k j * w' j))).
  - rewrite <- sum_upto_plus. apply sum_upto_ext. intros. ring.
  - rewrite sum_upto_scal. unfold sum_upto. rewrite H, H'. ring.
Qed.
(** The residual of the normalised projection is orthogonal to the basis. *)
Lemma c09_orthogonal f res w : quad_rhs b f res -> normalizer_gives b true res w ->
  forall i, (i < b_len b)%nat ->
  is_RInt (fun x => basis_eval b x i * (f x - sum_upto (b_len b) (fun j => w j * basis_eval b x j)))
    (nth 0 grid 0) (nth (length grid - 1) grid 0) 0.
Proof.
  intros Hq Hw i Hi. pose proof (c09_quad f res Hq i Hi) as H1.
  assert (H2 : is_RInt (fun x => sum_upto (b_len b) (fun j => w j * (basis_eval b x i * basis_eval b x j)))
     (nth 0 grid 0) (nth (length grid - 1) grid 0) (sum_upto (b_len b) (fun j => w j * mass_matrix b i j))).
  { apply is_RInt_sum. intros j Hj. apply (@is_RInt_scal R_NormedModule). now apply c09_mass. }
  pose proof (@is_RInt_minus R_NormedModule _ _ _ _ _ _ H1 H2) as H3.
  apply (is_RInt_eq _ _ _ _ 0) in H3.
  - revert H3. apply (@is_RInt_ext R_NormedModule). intros x _.
    unfold minus, plus, opp. cbn.
    rewrite Rmult_minus_distr_l. unfold Rminus. f_equal. f_equal. rewrite <- sum_upto_scal.
    apply sum_upto_ext. intros. ring.
  - specialize (Hw i Hi). cbn beta in Hw. fold (sum_upto (b_len b) (fun j => mass_matrix b i j * w j)) in Hw.
    assert (E : sum_upto (b_len b) (fun j => w j * mass_matrix b i j) = res i).
    { rewrite <- Hw. apply sum_upto_ext. intros. ring. }
    rewrite E. apply (@plus_opp_r R_AbelianGroup).
Qed.
End C09.

Theorem C09_mass_matrix : forall grid zb b, increasing grid -> basis_init grid zb = Ok b ->
  forall i j, (i < b_len b)%nat -> (j < b_len b)%nat ->
  is_RInt (fun x => basis_eval b x i * basis_eval b x j) (nth 0 grid 0) (nth (length grid - 1) grid 0) (mass_matrix b i j).
Proof. exact c09_mass. Qed.
Print Assumptions C09_mass_matrix.

(** Without normalisation the projection of a constant is the vector of integrals. *)
Lemma c09_constant_unnormalised grid zb b c w : increasing grid -> basis_init grid zb = Ok b ->
  normalizer_gives b false (constant_rhs b c) w ->
  forall i, (i < b_len b)%nat ->
  is_RInt (fun x => c * basis_eval b x i) (nth 0 grid 0) (nth (length grid - 1) grid 0) (w i).
Proof. intros Hinc Hb Hw i Hi. rewrite (Hw i Hi). now apply (c09_rhs grid zb). Qed.
Theorem C09_constant_unnormalised : forall grid zb b c w, increasing grid -> basis_init grid zb = Ok b ->
  normalizer_gives b false (constant_rhs b c) w ->
  forall i, (i < b_len b)%nat ->
  is_RInt (fun x => c * basis_eval b x i) (nth 0 grid 0) (nth (length grid - 1) grid 0) (w i).
Proof. exact c09_constant_unnormalised. Qed.
Print Assumptions C09_constant_unnormalised.

(** The same for functions integrated by quadrature over the support. *)
Lemma c09_function_unnormalised grid zb b f res w : increasing grid -> basis_init grid zb = Ok b ->
  quad_rhs b f res -> normalizer_gives b false res w ->
  forall i, (i < b_len b)%nat ->
  is_RInt (fun x => basis_eval b x i * f x) (nth 0 grid 0) (nth (length grid - 1) grid 0) (w i).
Proof. intros Hinc Hb Hq Hw i Hi. rewrite (Hw i Hi). now apply (c09_quad grid zb). Qed.
Theorem C09_function_unnormalised : forall grid zb b f res w, increasing grid -> basis_init grid zb = Ok b ->
  quad_rhs b f res -> normalizer_gives b false res w ->
  forall i, (i < b_len b)%nat ->
  is_RInt (fun x => basis_eval b x i * f x) (nth 0 grid 0) (nth (length grid - 1) grid 0) (w i).
Proof. exact c09_function_unnormalised. Qed.
Print Assumptions C09_function_unnormalised.

(** With normalisation the coefficients are uniquely determined, and their
    residual is orthogonal to every basis function. *)
Theorem C09_normaliser_unique : forall grid zb b, increasing grid -> basis_init grid zb = Ok b ->
  forall res w w', normalizer_gives b true res w -> normalizer_gives b true res w' ->
  forall i, (i < b_len b)%nat -> w i = w' i.
Proof. exact c09_unique. Qed.
Print Assumptions C09_normaliser_unique.

Theorem C09_projection_orthogonal : forall grid zb b, increasing grid -> basis_init grid zb = Ok b ->
  forall f res w, quad_rhs b f res -> normalizer_gives b true res w ->
  forall i, (i < b_len b)%nat ->
  is_RInt (fun x => basis_eval b x i * (f x - sum_upto (b_len b) (fun j => w j * basis_eval b x j)))
    (nth 0 grid 0) (nth (length grid - 1) grid 0) 0.
Proof. exact c09_orthogonal. Qed.
Print Assumptions C09_projection_orthogonal.

(** The normalised projection of a constant has constant coefficients, and no
    other coefficients. *)
Lemma c09_constant_projection grid b c w : increasing grid -> basis_init grid false = Ok b ->
  (normalizer_gives b true (constant_rhs b c) w <-> forall i, (i < b_len b)%nat -> w i = c).
Proof.
  intros Hinc Hb. destruct (init_facts grid false b Hinc Hb) as (A & B & Z & L & G3 & N2 & D & D1 & D2).
  now apply constant_projection.
Qed.
Theorem C09_constant_projection : forall grid b c w, increasing grid -> basis_init grid false = Ok b ->
  (normalizer_gives b true (constant_rhs b c) w <-> forall i, (i < b_len b)%nat -> w i = c).
Proof. exact c09_constant_projection. Qed.
Print Assumptions C09_constant_projection.

Example C09_example : exists b, basis_init [0; 1; 3] false = Ok b /\ mass_matrix b 1 1 = 1 /\ mass_matrix b 0 1 = 1 / 6
  /\ constant_rhs b 2 2 = 2.
Proof.
  eexists. split; [reflexivity|]. unfold mass_matrix, diags_entry, mass_diag, mass_offdiag, constant_rhs, x_ip1, x_im1, x_i, at_, b_len. cbn.
  repeat split; field.
Qed.

(** ** C10 *)
Theorem C10_stiffness_uniform : forall grid, increasing grid -> forall test trial,
  basis_init grid true = Ok test -> basis_init grid false = Ok trial ->
  exists K, weak_laplacian test trial = Ok K /\
   ((exists h, uniform grid h) -> forall i j, (i < b_len test)%nat -> (j < b_len trial)%nat ->
    is_RInt (fun x => Derive (fun y => basis_eval test y i) x * Derive (fun y => basis_eval trial y j) x)
      (nth 0 grid 0) (nth (length grid - 1) grid 0) (- K i j)).
Proof.
  intros grid Hinc test trial Ht Htr.
  destruct (init_facts grid true test Hinc Ht) as (_ & _ & _ & _ & L & _).
  destruct (laplacian_ok grid L test trial Ht Htr) as [K [HK _]]. exists K. split; [exact HK|].
  intros [h Hu]. apply (laplacian_iff grid Hinc L test trial Ht Htr K HK).
  assert (E : at_ grid 1 - at_ grid 0 = h) by (apply (Hu 0%nat); lia). intros i Hi. rewrite E. apply Hu. exact Hi.
Qed.
Print Assumptions C10_stiffness_uniform.

(** ... and only there: every non-uniform grid gives a wrong matrix. *)
Theorem C10_stiffness_iff_uniform : forall grid, increasing grid -> forall test trial K,
  basis_init grid true = Ok test -> basis_init grid false = Ok trial -> weak_laplacian test trial = Ok K ->
  ((forall i j, (i < b_len test)%nat -> (j < b_len trial)%nat ->
     is_RInt (fun x => Derive (fun y => basis_eval test y i) x * Derive (fun y => basis_eval trial y j) x)
      (nth 0 grid 0) (nth (length grid - 1) grid 0) (- K i j))
   <-> uniform grid (nth 1 grid 0 - nth 0 grid 0)).
Proof.
  intros grid Hinc test trial K Ht Htr HK.
  destruct (init_facts grid true test Hinc Ht) as (_ & _ & _ & _ & L & _).
  exact (laplacian_iff grid Hinc L test trial Ht Htr K HK).
Qed.
Print Assumptions C10_stiffness_iff_uniform.

Lemma list_Reqb_spec l m : list_Reqb l m = true <-> l = m.
Proof.
  revert m. induction l as [|x l IH]; intros [|y m]; cbn; try (split; congruence).
  rewrite andb_true_iff, IH. destruct (Reqb_spec x y); split; intuition congruence.
Qed.

(** Which pairs of bases are accepted. *)
Theorem C10_accepts : forall test trial,
  ((exists K, weak_laplacian test trial = Ok K) <->
   b_zero test = true /\ b_zero trial = false /\ b_len trial = (b_len test + 2)%nat /\
   slice (b_grid trial) 1 (length (b_grid trial) - 1) = b_grid test) /\
  (forall e, weak_laplacian test trial = Err e ->
     e = if b_zero test then NotImplementedError else AssertionError).
Proof.
  intros test trial. unfold weak_laplacian. destruct (b_zero test), (b_zero trial); cbn [negb].
  - split; [|intros e [= <-]; reflexivity]. split; [intros [K HK]; discriminate|intros (_ & H & _); discriminate].
  - destruct (Nat.eqb_spec (b_len trial) (b_len test + 2)); cbn [andb].
    + destruct (list_Reqb _ _) eqn:E.
      * apply list_Reqb_spec in E. split; [|discriminate]. split; [auto|]. intros _. eexists. reflexivity.
      * split; [|intros e0 [= <-]; reflexivity]. split; [intros [K HK]; discriminate|].
        intros (_ & _ & _ & H). apply list_Reqb_spec in H. congruence.
    + split; [|intros e0 [= <-]; reflexivity]. split; [intros [K HK]; discriminate|intros (_ & _ & H & _); contradiction].
  - split; [|intros e [= <-]; reflexivity]. split; [intros [K HK]; discriminate|intros (H & _); discriminate].
  - split; [|intros e [= <-]; reflexivity]. split; [intros [K HK]; discriminate|intros (H & _); discriminate].
Qed.
Print Assumptions C10_accepts.

(** Finding: on the grid 0, 1, 3 the assembled matrix is not the stiffness matrix. *)
Theorem C10_stiffness_refuted : exists grid test trial K i j v, increasing grid /\
  basis_init grid true = Ok test /\ basis_init grid false = Ok trial /\ weak_laplacian test trial = Ok K /\
  (i < b_len test)%nat /\ (j < b_len trial)%nat /\
  is_RInt (fun x => Derive (fun y => basis_eval test y i) x * Derive (fun y => basis_eval trial y j) x)
      (nth 0 grid 0) (nth (length grid - 1) grid 0) v /\ v <> - K i j.
Proof.
  set (G := [0; 1; 3]).
  destruct (basis_init G true) as [test|] eqn:Ht; [|discriminate].
  destruct (basis_init G false) as [trial|] eqn:Htr; [|discriminate].
  assert (L : (3 <= length G)%nat) by (cbn; lia).
  destruct (laplacian_ok G L test trial Ht Htr) as [K [HK Hent]].
  destruct (init_facts G true test incr3 Ht) as (_ & _ & _ & L1 & _).
  destruct (init_facts G false trial incr3 Htr) as (_ & _ & _ & L2 & _).
  exists G, test, trial, K, 0%nat, 2%nat, (tslope G 2 0 - tslope G 2 1).
  split; [exact incr3|]. do 3 (split; [assumption|]). split; [rewrite L1; cbn; lia|]. split; [rewrite L2; cbn; lia|].
  split; [apply (stiffness_int G incr3 L test trial Ht Htr 0 2); cbn; lia|].
  rewrite Hent. unfold tslope, dn, at_. cbn. lra.
Qed.
Print Assumptions C10_stiffness_refuted.

Example C10_example : increasing [0; 1; 2; 3] /\ uniform [0; 1; 2; 3] 1 /\
  exists K test trial, basis_init [0; 1; 2; 3] true = Ok test /\ basis_init [0; 1; 2; 3] false = Ok trial /\
    weak_laplacian test trial = Ok K /\ K 1%nat 2%nat = -2 /\ K 1%nat 1%nat = 1 /\ K 0%nat 3%nat = 0.
Proof.
  assert (I : increasing [0; 1; 2; 3]).
  { intros i j Hij. cbn in Hij. destruct i as [|[|[|[|i]]]], j as [|[|[|[|j]]]]; try lia; cbn; lra. }
  split; [exact I|]. split.
  { intros i Hi. cbn in Hi. destruct i as [|[|[|i]]]; try lia; cbn; lra. }
  destruct (basis_init [0;1;2;3] true) as [test|] eqn:Ht; [|discriminate].
  destruct (basis_init [0;1;2;3] false) as [trial|] eqn:Htr; [|discriminate].
  destruct (laplacian_ok [0;1;2;3] ltac:(cbn; lia) test trial Ht Htr) as [K [HK Hent]].
  exists K, test, trial. do 3 (split; [assumption || reflexivity|]).
  rewrite !Hent. unfold dn, at_. cbn. lra.
Qed.
