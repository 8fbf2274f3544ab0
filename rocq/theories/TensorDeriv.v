(** Partial derivatives of sums of products of functions of one variable. *)
From Coq Require Import List Arith Lia Reals Bool FunctionalExtensionality.
From Coquelicot Require Import Coquelicot.
From Verif Require Import Base NdArray NdData PolyClassModel FunExprModel DiffopModel DiffopSpec DiffopProofs LfoModel LfoSpec CrossModel TensorModel TensorSpec TensorDiffSpec TensorProofs TensorDiff.
Import ListNotations.
Local Open Scope R_scope.

Definition prodR (l : list R) : R := fold_right Rmult 1 l.
Section Q.
Variables (n : nat) (T : nat -> nat).
Definition bump (os : nat -> nat) (k m0 m : nat) : nat := if Nat.eq_dec m m0 then (k + os m)%nat else os m.
(** The family [D] of functions of [n] coordinates: [D os] is the derivative of orders [os]
    of [D 0], with at most [T m] derivatives in the coordinate [m]. *)
Definition partials (D : (nat -> nat) -> array -> R) : Prop :=
  (forall os os', (forall m, (m < n)%nat -> os m = os' m) -> D os = D os') /\
  forall os m0 x, (m0 < n)%nat -> (forall m, (m < n)%nat -> (os m <= T m)%nat) -> (os m0 < T m0)%nat ->
    is_derive (fun t => D os (upd x [m0] t)) (x [m0]) (D (bump os 1 m0) x).
Section D.
Variable D : (nat -> nat) -> array -> R.
Hypothesis HD : partials D.
Notation fits os := (forall m, (m < n)%nat -> (os m <= T m)%nat).
Lemma pd_D os m0 : (m0 < n)%nat -> fits os -> (os m0 < T m0)%nat -> pd [m0] (D os) = D (bump os 1 m0).
Proof. intros Hm F L. apply functional_extensionality. intros x. unfold pd. apply is_derive_unique. now apply (proj2 HD). Qed.
Lemma iter_D m0 k os : (m0 < n)%nat -> fits os -> (k + os m0 <= T m0)%nat -> Nat.iter k (pd [m0]) (D os) = D (bump os k m0).
Proof.
  intros Hm F. induction k as [|k IH]; intros L.
  - cbn [Nat.iter]. apply (proj1 HD). intros m _. unfold bump. now destruct (Nat.eq_dec m m0).
  - change (Nat.iter (S k) (pd [m0]) (D os)) with (pd [m0] (Nat.iter k (pd [m0]) (D os))). rewrite IH by lia. rewrite pd_D; [|exact Hm| |].
    + apply (proj1 HD). intros m _. unfold bump. destruct (Nat.eq_dec m m0); lia.
    + intros m Hm'. unfold bump. destruct (Nat.eq_dec m m0) as [->|]; [lia|now apply F].
    + unfold bump. destruct (Nat.eq_dec m0 m0); [lia|contradiction].
Qed.
Lemma pderiv_D a : mi_shape a = [n] -> (forall m, (m < n)%nat -> (mi_entry a [m] <= T m)%nat) -> pderiv a (D (fun _ => 0%nat)) = D (fun m => mi_entry a [m]).
Proof.
  intros E Fa. unfold pderiv. rewrite E, indices_one.
  assert (G : forall k s os, (s + k <= n)%nat -> fits os -> (forall m, (s <= m < s + k)%nat -> (mi_entry a [m] + os m <= T m)%nat) ->
    fold_left (fun h i => Nat.iter (mi_entry a i) (pd i) h) (map (fun m => [m]) (seq s k)) (D os) =
    D (fun m => if (Nat.leb s m && Nat.ltb m (s + k))%bool then (mi_entry a [m] + os m)%nat else os m)).
  { induction k as [|k IH]; intros s os H F B; cbn [seq map fold_left].
    - apply (proj1 HD). intros m _. destruct (Nat.leb_spec s m), (Nat.ltb_spec m (s + 0)); cbn; try reflexivity. lia.
    - rewrite iter_D; [|lia|exact F|apply B; lia]. rewrite IH; [|lia| |].
      + apply (proj1 HD). intros m _. unfold bump.
        destruct (Nat.leb_spec (S s) m), (Nat.ltb_spec m (S s + k)), (Nat.leb_spec s m), (Nat.ltb_spec m (s + S k)), (Nat.eq_dec m s); subst; cbn [andb]; lia.
      + intros m Hm. unfold bump. destruct (Nat.eq_dec m s) as [->|]; [apply B; lia|now apply F].
      + intros m Hm. unfold bump. destruct (Nat.eq_dec m s); [lia|]. apply B. lia. }
  rewrite G; [|lia|intros; lia|intros m Hm; rewrite Nat.add_0_r; apply Fa; lia].
  apply (proj1 HD). intros m Hm. destruct (Nat.leb_spec 0 m), (Nat.ltb_spec m (0 + n)); cbn [andb]; lia.
Qed.
End D.
(** Terms: a coefficient, and for every dimension and order the derivative. *)
Definition chains := list (R * (nat -> nat -> R -> R)).
Definition chain_ok (l : chains) : Prop := forall c H, In (c, H) l -> forall m i t, (m < n)%nat -> (i < T m)%nat -> is_derive (H m i) t (H m (S i) t).
Definition prodQ (H : nat -> nat -> R -> R) (os : nat -> nat) (x : array) (ms : list nat) : R := prodR (map (fun m => H m (os m) (x [m])) ms).
Definition Q (l : chains) (os : nat -> nat) (x : array) : R := total (map (fun '(c, H) => c * prodQ H os x (seq 0 n)) l).

Lemma upd_same x m t : upd x [m] t [m] = t.
Proof. unfold upd. destruct (list_eq_dec Nat.eq_dec [m] [m]); congruence. Qed.
Lemma upd_other x m m' t : m' <> m -> upd x [m] t [m'] = x [m'].
Proof. intros N. unfold upd. destruct (list_eq_dec Nat.eq_dec [m'] [m]) as [E|]; [injection E; contradiction|reflexivity]. Qed.
Lemma prodQ_const H os x m0 t ms : ~ In m0 ms -> prodQ H os (upd x [m0] t) ms = prodQ H os x ms.
Proof.
  intros N. unfold prodQ. f_equal. apply map_ext_in. intros m Hm. rewrite upd_other; [reflexivity|]. intros ->. contradiction.
Qed.
Lemma prodQ_bump H os x m0 ms : ~ In m0 ms -> prodQ H (bump os 1 m0) x ms = prodQ H os x ms.
Proof.
  intros N. unfold prodQ. f_equal. apply map_ext_in. intros m Hm. unfold bump. destruct (Nat.eq_dec m m0) as [->|]; [contradiction|reflexivity].
Qed.
Lemma prodQ_cons H os x m ms : prodQ H os x (m :: ms) = H m (os m) (x [m]) * prodQ H os x ms.
Proof. reflexivity. Qed.
Lemma prodQ_derive H os x m0 ms : (forall t, is_derive (H m0 (os m0)) t (H m0 (S (os m0)) t)) -> NoDup ms -> In m0 ms ->
  is_derive (fun t => prodQ H os (upd x [m0] t) ms) (x [m0]) (prodQ H (bump os 1 m0) x ms).
Proof.
  intros D. induction ms as [|m ms IH]; intros N Hi; [destruct Hi|]. inversion N as [|? ? N1 N2]; subst.
  rewrite prodQ_cons. unfold bump at 1. destruct (Nat.eq_dec m m0) as [->|Nm].
  - rewrite (prodQ_bump H os x m0 ms N1). apply (is_derive_ext (fun t => scal (prodQ H os x ms) (H m0 (os m0) t))).
    { intros t. rewrite prodQ_cons, upd_same, prodQ_const by exact N1. unfold scal. cbn. unfold mult. cbn. ring. }
    replace (H m0 (1 + os m0)%nat (x [m0]) * prodQ H os x ms) with (scal (prodQ H os x ms) (H m0 (S (os m0)) (x [m0]))) by (unfold scal; cbn; unfold mult; cbn; ring).
    apply @is_derive_scal. apply D.
  - destruct Hi as [->|Hi]; [contradiction|].
    apply (is_derive_ext (fun t => scal (H m (os m) (x [m])) (prodQ H os (upd x [m0] t) ms))).
    { intros t. rewrite prodQ_cons, upd_other by exact Nm. reflexivity. }
    change (H m (os m) (x [m]) * prodQ H (bump os 1 m0) x ms) with (scal (H m (os m) (x [m])) (prodQ H (bump os 1 m0) x ms)).
    apply @is_derive_scal. apply IH; [exact N2|exact Hi].
Qed.
Lemma Q_derive l os x m0 : chain_ok l -> (m0 < n)%nat -> (os m0 < T m0)%nat -> is_derive (fun t => Q l os (upd x [m0] t)) (x [m0]) (Q l (bump os 1 m0) x).
Proof.
  intros C Hm L. induction l as [|[c H] l IH].
  - apply (is_derive_const 0).
  - change (Q ((c, H) :: l) (bump os 1 m0) x) with (plus (scal c (prodQ H (bump os 1 m0) x (seq 0 n))) (Q l (bump os 1 m0) x)).
    apply (is_derive_ext (fun t => plus (scal c (prodQ H os (upd x [m0] t) (seq 0 n))) (Q l os (upd x [m0] t)))); [reflexivity|].
    apply @is_derive_plus.
    + apply @is_derive_scal. apply prodQ_derive; [|apply seq_NoDup|apply in_seq; lia]. intros t. now apply (C c H (or_introl eq_refl)).
    + apply IH. intros c' H' Hi. apply (C c' H'). now right.
Qed.
Lemma Q_ext l os os' : (forall m, (m < n)%nat -> os m = os' m) -> Q l os = Q l os'.
Proof.
  intros E. apply functional_extensionality. intros x. unfold Q. f_equal. apply map_ext. intros [c H]. f_equal. unfold prodQ. f_equal. apply map_ext_in.
  intros m Hm. apply in_seq in Hm. rewrite E by lia. reflexivity.
Qed.
Lemma Q_partials l : chain_ok l -> partials (Q l).
Proof. intros C. split; [apply Q_ext|]. intros os m0 x Hm _ L. now apply Q_derive. Qed.
Lemma pderiv_Q l a : chain_ok l -> mi_shape a = [n] -> (forall m, (m < n)%nat -> (mi_entry a [m] <= T m)%nat) ->
  pderiv a (Q l (fun _ => 0%nat)) = Q l (fun m => mi_entry a [m]).
Proof. intros C. exact (pderiv_D (Q l) (Q_partials l C) a). Qed.
End Q.

(** An operator [sum c d^a] applied to a function. *)
Definition apply_terms (C : list (mi * R)) (f : array -> R) (x : array) : R := total (map (fun '(a, c) => c * pderiv a f x) C).
(** [G m i j] are the partial derivatives of [G m 0 0], of orders up to [T0 m] and [T1 m]. *)
Definition derivatives (n : nat) (T0 T1 : nat -> nat) (G : nat -> nat -> nat -> R -> R -> R) : Prop :=
  forall m i j s t, (m < n)%nat ->
    ((i < T0 m)%nat -> (j <= T1 m)%nat -> is_derive (fun u => G m i j u t) s (G m (S i) j s t)) /\
    ((i <= T0 m)%nat -> (j < T1 m)%nat -> is_derive (fun u => G m i j s u) t (G m i (S j) s t)).
(** The terms of an operator on functions of [n] coordinates, with at most [T m] derivatives
    in the coordinate [m]. *)
Definition orders_upto (n : nat) (T : nat -> nat) (C : list (mi * R)) : Prop :=
  forall a c, In (a, c) C -> mi_shape a = [n] /\ forall m, (m < n)%nat -> (mi_entry a [m] <= T m)%nat.
Lemma prodR_fprod {A} n (g : nat -> A -> A -> R) x y : prodR (map (fun m => g m (x m) (y m)) (seq 0 n)) = @tensor RF A n g x y.
Proof. reflexivity. Qed.
Lemma total_fsum l : total l = @fsum RF l.
Proof. reflexivity. Qed.
Lemma total_mult c l : c * total l = total (map (fun x => c * x) l).
Proof. induction l as [|a l IH]; cbn; [ring|]. unfold total in IH. rewrite <- IH. ring. Qed.
Lemma total_ext {A} (f g : A -> R) l : (forall x, In x l -> f x = g x) -> total (map f l) = total (map g l).
Proof. intros H. f_equal. now apply map_ext_in. Qed.

Theorem both_operators n T0 T1 C0 C1 G x y : derivatives n T0 T1 G -> orders_upto n T0 C0 -> orders_upto n T1 C1 ->
  apply_terms C0 (fun x' => apply_terms C1 (fun y' => @tensor RF R n (fun m => G m 0%nat 0%nat) (fun m => x' [m]) (fun m => y' [m])) y) x
    = @diff_value RF R n C0 C1 G (fun m => x [m]) (fun m => y [m]) /\
  apply_terms C1 (fun y' => apply_terms C0 (fun x' => @tensor RF R n (fun m => G m 0%nat 0%nat) (fun m => x' [m]) (fun m => y' [m])) x) y
    = @diff_value RF R n C0 C1 G (fun m => x [m]) (fun m => y [m]).
Proof.
  intros D S0 S1.
  assert (K0 : forall y' : array, chain_ok n T0 [(1, fun m i s => G m i 0%nat s (y' [m]))]).
  { intros y' c H [E|[]]. injection E as <- <-. intros m i t Hm Hi. apply (D m i 0%nat t (y' [m]) Hm); lia. }
  assert (K1 : forall x' : array, chain_ok n T1 [(1, fun m j t => G m 0%nat j (x' [m]) t)]).
  { intros x' c H [E|[]]. injection E as <- <-. intros m i t Hm Hi. apply (D m 0%nat i (x' [m]) t Hm); lia. }
  assert (A1 : forall x' : array, apply_terms C1 (fun y' => @tensor RF R n (fun m => G m 0%nat 0%nat) (fun m => x' [m]) (fun m => y' [m])) y =
    Q n (map (fun '(b, c1) => (c1, fun m i s => G m i (mi_entry b [m]) s (y [m]))) C1) (fun _ => 0%nat) x').
  { intros x'. unfold apply_terms, Q. rewrite map_map. apply total_ext. intros [b c1] Hb. f_equal.
    pose proof (pderiv_Q n T1 _ b (K1 x') (proj1 (S1 b c1 Hb)) (proj2 (S1 b c1 Hb))) as E.
    transitivity (pderiv b (Q n [(1, fun m j t => G m 0%nat j (x' [m]) t)] (fun _ => 0%nat)) y).
    - f_equal. apply functional_extensionality. intros y'. unfold Q, prodQ, total. cbn [map fold_right]. rewrite Rmult_1_l, Rplus_0_r. reflexivity.
    - rewrite E. unfold Q, prodQ, total. cbn [map fold_right]. rewrite Rmult_1_l, Rplus_0_r. reflexivity. }
  assert (A0 : forall y' : array, apply_terms C0 (fun x' => @tensor RF R n (fun m => G m 0%nat 0%nat) (fun m => x' [m]) (fun m => y' [m])) x =
    Q n (map (fun '(a, c0) => (c0, fun m j t => G m (mi_entry a [m]) j (x [m]) t)) C0) (fun _ => 0%nat) y').
  { intros y'. unfold apply_terms, Q. rewrite map_map. apply total_ext. intros [a c0] Ha. f_equal.
    pose proof (pderiv_Q n T0 _ a (K0 y') (proj1 (S0 a c0 Ha)) (proj2 (S0 a c0 Ha))) as E.
    transitivity (pderiv a (Q n [(1, fun m i s => G m i 0%nat s (y' [m]))] (fun _ => 0%nat)) x).
    - f_equal. apply functional_extensionality. intros x'. unfold Q, prodQ, total. cbn [map fold_right]. rewrite Rmult_1_l, Rplus_0_r. reflexivity.
    - rewrite E. unfold Q, prodQ, total. cbn [map fold_right]. rewrite Rmult_1_l, Rplus_0_r. reflexivity. }
  split.
  - rewrite (functional_extensionality _ _ A1). unfold apply_terms, diff_value. change (@fsum RF) with total. apply total_ext. intros [a c0] Ha.
    rewrite (pderiv_Q n T0 _ a); [|intros c H Hi; apply in_map_iff in Hi as [[b c1] [E Hb]]; injection E as <- <-; intros m i t Hm Li; apply (D m i (mi_entry b [m]) t (y [m]) Hm); [exact Li|now apply (S1 b c1 Hb)]|apply (S0 a c0 Ha)|apply (S0 a c0 Ha)].
    unfold Q. rewrite map_map, total_mult, map_map. change (@fsum RF) with total. apply total_ext. intros [b c1] _.
    change (@fmul RF ?u ?v) with (u * v). rewrite Rmult_assoc. reflexivity.
  - rewrite (functional_extensionality _ _ A0). unfold apply_terms, diff_value.
    transitivity (total (map (fun '(b, c1) => total (map (fun '(a, c0) => c0 * c1 * @tensor RF R n (fun m => G m (mi_entry a [m]) (mi_entry b [m])) (fun m => x [m]) (fun m => y [m])) C0)) C1)).
    + apply total_ext. intros [b c1] Hb.
      rewrite (pderiv_Q n T1 _ b); [|intros c H Hi; apply in_map_iff in Hi as [[a c0] [E Ha]]; injection E as <- <-; intros m i t Hm Li; apply (D m (mi_entry a [m]) i (x [m]) t Hm); [now apply (S0 a c0 Ha)|exact Li]|apply (S1 b c1 Hb)|apply (S1 b c1 Hb)].
      unfold Q. rewrite map_map, total_mult, map_map. apply total_ext. intros [a c0] _.
      rewrite <- Rmult_assoc, (Rmult_comm c1 c0). reflexivity.
    + assert (SW : forall (f : mi * R -> mi * R -> R), total (map (fun q => total (map (fun p => f p q) C0)) C1) = total (map (fun p => total (map (fun q => f p q) C1)) C0)).
      { intros f. clear. induction C1 as [|q C1' IH].
        - cbn. induction C0 as [|p C0' IH0]; [reflexivity|]. cbn. unfold total in IH0. rewrite <- IH0. ring.
        - cbn [map]. unfold total at 1. cbn [fold_right]. fold (total (map (fun q0 => total (map (fun p => f p q0) C0)) C1')). rewrite IH. clear IH.
          induction C0 as [|p C0' IH0]; [cbn; ring|]. cbn [map]. unfold total in IH0 |- *. cbn [fold_right map] in IH0 |- *. rewrite <- IH0. ring. }
      specialize (SW (fun '(a, c0) '(b, c1) => c0 * c1 * @tensor RF R n (fun m => G m (mi_entry a [m]) (mi_entry b [m])) (fun m => x [m]) (fun m => y [m]))).
      change (@fsum RF) with total. etransitivity; [etransitivity; [|exact SW]|]; apply total_ext; intros [b c1] _; [apply total_ext; intros [a c0] _; reflexivity|].
      change (@fsum RF) with total. apply total_ext. intros [a c0] _. reflexivity.
Qed.
