(** Derivatives at points of functions of several variables, and their covariances when the
    covariance function is a product of stationary functions of one variable. *)
From Coq Require Import List Arith Lia Reals Lra Bool FunctionalExtensionality.
From Coquelicot Require Import Coquelicot.
From Verif Require Import Base NdArray FunExprModel DiffopModel DiffopSpec DiffopProofs DiffopFactor LfoModel LfoSpec LfoSmooth KernelModel KernelSpec
  ParamSpec ParamProofs TensorSpec TensorSchur PsdBase PsdMat PsdDiff PdeCondSpec SmoothSym TensorDiff TensorDeriv MaternStrict StatChain MaternChain TensorStrict.
Import ListNotations.
Open Scope R_scope.

(** The functions of [n] coordinates with mixed partial derivatives of orders up to [T m] in
    the coordinate [m]. *)
Definition regular (n : nat) (T : nat -> nat) (f : array -> R) : Prop :=
  (exists D, partials n T D /\ D (fun _ => 0%nat) = f) /\ forall x y, agree [n] x y -> f x = f y.
(** Combinations of derivatives at points. *)
Definition tterms := list (R * (mi * array)).
Definition tfun (s : tterms) (f : array -> R) : R := sumR (fun p => fst p * pderiv (fst (snd p)) f (snd (snd p))) s.
Definition tdom (n : nat) (T : nat -> nat) (s : tterms) : Prop :=
  forall p, In p s -> mi_shape (fst (snd p)) = [n] /\ forall m, (m < n)%nat -> (mi_entry (fst (snd p)) [m] <= T m)%nat.

Lemma pd_scal c i f : pd i (fun x => c * f x) = fun x => c * pd i f x.
Proof. extensionality x. unfold pd. apply Derive_scal. Qed.
Lemma iter_scal c i k f : Nat.iter k (pd i) (fun x => c * f x) = fun x => c * Nat.iter k (pd i) f x.
Proof. induction k as [|k IH]; [reflexivity|]. change (pd i (Nat.iter k (pd i) (fun x => c * f x)) = fun x => c * pd i (Nat.iter k (pd i) f) x). rewrite IH. apply pd_scal. Qed.
Lemma pderiv_scal c a f : pderiv a (fun x => c * f x) = fun x => c * pderiv a f x.
Proof.
  unfold pderiv. generalize (all_indices (mi_shape a)). intros l. revert f. induction l as [|i l IH]; intros f; [reflexivity|]. cbn [fold_left]. rewrite iter_scal. apply IH.
Qed.
Lemma tfun_cscal s c f : tfun s (fun x => c * f x) = c * tfun s f.
Proof. unfold tfun. rewrite sumR_scal. apply sumR_ext. intros p _. rewrite pderiv_scal. ring. Qed.

(** ** Functions that depend on the coordinates only *)
Section Agree.
Variable n : nat.
Definition coords (f : array -> R) : Prop := forall x y, agree [n] x y -> f x = f y.
Lemma one_index m : (m < n)%nat -> valid_index [n] [m].
Proof. intros H. constructor; [exact H|constructor]. Qed.
Lemma pd_coords f m : (m < n)%nat -> coords f -> coords (pd [m] f).
Proof.
  intros Hm C x y A. unfold pd. rewrite (A [m] (one_index m Hm)). apply Derive_ext. intros t. apply C. intros i Hi. unfold upd. destruct (list_eq_dec Nat.eq_dec i [m]); [reflexivity|now apply A].
Qed.
Lemma iter_coords f m k : (m < n)%nat -> coords f -> coords (Nat.iter k (pd [m]) f).
Proof. intros Hm C. induction k as [|k IH]; [exact C|]. exact (pd_coords _ m Hm IH). Qed.
(** The derivative of orders [os]. *)
Definition dord (os : nat -> nat) (f : array -> R) : array -> R := fold_left (fun h m => Nat.iter (os m) (pd [m]) h) (seq 0 n) f.
Lemma dord_coords os f : coords f -> coords (dord os f).
Proof.
  unfold dord. assert (G : forall l f, (forall m, In m l -> (m < n)%nat) -> coords f -> coords (fold_left (fun h m => Nat.iter (os m) (pd [m]) h) l f)).
  { induction l as [|m l IH]; intros h Hl C; [exact C|]. cbn [fold_left]. apply IH; [intros; apply Hl; now right|]. apply iter_coords; [apply Hl; now left|exact C]. }
  intros C. apply G; [|exact C]. intros m Hm. apply in_seq in Hm. lia.
Qed.
Lemma dord_ext os os' f : (forall m, (m < n)%nat -> os m = os' m) -> dord os f = dord os' f.
Proof.
  intros E. unfold dord. assert (G : forall l f, (forall m, In m l -> (m < n)%nat) -> fold_left (fun h m => Nat.iter (os m) (pd [m]) h) l f = fold_left (fun h m => Nat.iter (os' m) (pd [m]) h) l f).
  { induction l as [|m l IH]; intros h Hl; [reflexivity|]. cbn [fold_left]. rewrite (E m) by (apply Hl; now left). apply IH. intros; apply Hl; now right. }
  apply G. intros m Hm. apply in_seq in Hm. lia.
Qed.
Lemma pderiv_dord a f : mi_shape a = [n] -> pderiv a f = dord (fun m => mi_entry a [m]) f.
Proof.
  intros E. unfold pderiv, dord. rewrite E, indices_one. generalize (seq 0 n). intros l. revert f. induction l as [|m l IH]; intros f; [reflexivity|]. cbn [map fold_left]. apply IH.
Qed.
(** Orders and coordinates, as points of the product of the lines. *)
Definition pts (z : nat -> nat * R) : array := fun i => match i with [m] => snd (z m) | _ => 0 end.
Definition zof (p : mi * array) (m : nat) : nat * R := (mi_entry (fst p) [m], snd p [m]).
Lemma pts_zof p : agree [n] (pts (zof p)) (snd p).
Proof. intros i Hi. destruct i as [|m [|k i]]; [inversion Hi|reflexivity|]. inversion Hi as [|? ? ? ? ? H2]. inversion H2. Qed.
Definition jet (f : array -> R) (z : nat -> nat * R) : R := dord (fun m => fst (z m)) f (pts z).
Lemma jet_local f : coords f -> local n (jet f).
Proof.
  intros C z z' E. unfold jet. rewrite (dord_ext (fun m => fst (z m)) (fun m => fst (z' m))) by (intros m Hm; now rewrite (E m Hm)).
  apply dord_coords; [exact C|]. intros i Hi. destruct i as [|m [|k i]]; [reflexivity| |reflexivity]. cbn [pts]. rewrite E; [reflexivity|]. inversion Hi; assumption.
Qed.
Lemma jet_zof f p : coords f -> mi_shape (fst p) = [n] -> jet f (zof p) = pderiv (fst p) f (snd p).
Proof. intros C E. unfold jet. cbn [zof fst]. rewrite (pderiv_dord _ f E). apply dord_coords; [exact C|]. exact (pts_zof p). Qed.
End Agree.

(** ** Linearity *)
Section Lin.
Variables (n : nat) (T : nat -> nat).
Lemma regular_lin a f h : regular n T f -> regular n T h -> regular n T (fun x => a * f x + h x).
Proof.
  intros [(D & [E1 E2] & <-) Cf] [(D' & [E1' E2'] & <-) Ch]. split.
  - exists (fun os x => a * D os x + D' os x). split; [split|reflexivity].
    + intros os os' E. now rewrite (E1 os os' E), (E1' os os' E).
    + intros os m0 x Hm F L. apply @is_derive_plus; [apply is_derive_scal; now apply E2|now apply E2'].
  - intros x y A. now rewrite (Cf x y A), (Ch x y A).
Qed.
Lemma regular_const c : regular n T (fun _ => c).
Proof.
  split; [|reflexivity]. exists (fun os _ => if forallb (fun m => os m =? 0)%nat (seq 0 n) then c else 0). split; [split|].
  - intros os os' E. extensionality x. replace (forallb (fun m => (os' m =? 0)%nat) (seq 0 n)) with (forallb (fun m => (os m =? 0)%nat) (seq 0 n)); [reflexivity|].
    apply eq_true_iff_eq. rewrite !forallb_forall. split; intros H m Hm; pose proof (proj1 (in_seq n 0 m) Hm); [rewrite <- E by lia|rewrite E by lia]; now apply H.
  - intros os m0 x Hm _ _. replace (forallb (fun m => (bump os 1 m0 m =? 0)%nat) (seq 0 n)) with false; [apply @is_derive_const|].
    symmetry. apply not_true_iff_false. rewrite forallb_forall. intros H. specialize (H m0 ltac:(apply in_seq; lia)). unfold bump in H. destruct (Nat.eq_dec m0 m0); [discriminate|contradiction].
  - extensionality x. replace (forallb (fun _ => (0 =? 0)%nat) (seq 0 n)) with true; [reflexivity|]. symmetry. now apply forallb_forall.
Qed.
Lemma pderiv_lin a f h al : regular n T f -> regular n T h -> mi_shape al = [n] -> (forall m, (m < n)%nat -> (mi_entry al [m] <= T m)%nat) ->
  pderiv al (fun x => a * f x + h x) = fun x => a * pderiv al f x + pderiv al h x.
Proof.
  intros [(D & P & <-) _] [(D' & P' & <-) _] E F.
  rewrite (pderiv_D n T D P al E F), (pderiv_D n T D' P' al E F).
  assert (P2 : partials n T (fun os x => a * D os x + D' os x)).
  { destruct P as [E1 E2], P' as [E1' E2']. split.
    - intros os os' E0. now rewrite (E1 os os' E0), (E1' os os' E0).
    - intros os m0 x Hm F0 L. apply @is_derive_plus; [apply is_derive_scal; now apply E2|now apply E2']. }
  exact (pderiv_D n T _ P2 al E F).
Qed.
Lemma tfun_lin s a f h : tdom n T s -> regular n T f -> regular n T h -> tfun s (fun x => a * f x + h x) = a * tfun s f + tfun s h.
Proof.
  intros Ds Rf Rh. unfold tfun. rewrite sumR_scal, <- sumR_add. apply sumR_ext. intros p Hp. destruct (Ds p Hp) as [E F]. rewrite (pderiv_lin a f h _ Rf Rh E F). ring.
Qed.
(** Infinitely differentiable functions. *)
Lemma smooth_ex_derive sh f i x : smooth sh f -> ex_derive (fun t => f (upd x i t)) (x i).
Proof.
  intros S. pose proof (smooth_diff1 sh f S (unitv i) x) as D. apply (ex_derive_ext (fun s => f (fun j => x j + (s - x i) * unitv i j))).
  { intros s. rewrite along_unit. do 2 f_equal. ring. }
  apply (ex_derive_comp (fun t => f (fun j => x j + t * unitv i j)) (fun s => s - x i)); [|auto_derive; trivial].
  replace (x i - x i) with 0 by ring. eexists. exact D.
Qed.
Lemma smooth_regular f : c_infty [n] f -> regular n T f.
Proof.
  intros C. split; [|intros x y A; apply (smooth_agree [n] f x y (proj1 C) A)].
  set (word := fun os : nat -> nat => flat_map (fun m => repeat [m] (os m)) (seq 0 n)).
  exists (fun os => iterD (word os) f). split; [split|].
  - intros os os' E. f_equal. unfold word. assert (G : forall l, (forall m, In m l -> (m < n)%nat) -> flat_map (fun m => repeat [m] (os m)) l = flat_map (fun m => repeat [m] (os' m)) l).
    { induction l as [|m l IH]; intros Hl; [reflexivity|]. cbn [flat_map]. rewrite (E m) by (apply Hl; now left). f_equal. apply IH. intros; apply Hl; now right. }
    apply G. intros m Hm. apply in_seq in Hm. lia.
  - intros os m0 x Hm _ _.
    assert (V : List.Forall (valid_index [n]) (word os)).
    { apply Forall_forall. intros i Hi. unfold word in Hi. apply in_flat_map in Hi as (m & H1 & H2). apply repeat_spec in H2 as ->. apply in_seq in H1. apply one_index. lia. }
    assert (Vm : valid_index [n] [m0]) by now apply one_index.
    replace (iterD (word (bump os 1 m0)) f x) with (pd [m0] (iterD (word os) f) x).
    + unfold pd. apply Derive_correct. exact (smooth_ex_derive [n] (iterD (word os) f) [m0] x (smooth_iterD [n] (word os) f (proj1 C) V)).
    + transitivity (iterD (word os ++ [[m0]]) f x); [symmetry; exact (f_equal (fun h => h x) (iterD_snoc (word os) [m0] f))|]. apply (f_equal (fun h => h x)). apply (iterD_perm [n] f (word os ++ [[m0]]) (word (bump os 1 m0)) C).
      * apply Forall_app. split; [exact V|constructor; [exact Vm|constructor]].
      * assert (G : forall l, NoDup l -> In m0 l -> Permutation.Permutation (flat_map (fun m => repeat [m] (os m)) l ++ [[m0]]) (flat_map (fun m => repeat [m] (bump os 1 m0 m)) l)).
        { induction l as [|m l IH]; intros N Hi; [destruct Hi|]. inversion N as [|? ? N1 N2]; subst. cbn [flat_map]. unfold bump at 1. destruct (Nat.eq_dec m m0) as [->|Nm].
          - replace (flat_map (fun m => repeat [m] (bump os 1 m0 m)) l) with (flat_map (fun m => repeat [m] (os m)) l).
            + cbn [Nat.add repeat app]. rewrite <- app_assoc. rewrite Permutation.Permutation_app_comm. rewrite <- app_assoc. cbn [app]. 
              apply Permutation.Permutation_sym. etransitivity; [|apply Permutation.Permutation_middle]. constructor. apply Permutation.Permutation_app_comm.
            + clear - N1. induction l as [|k l IH]; [reflexivity|]. cbn [flat_map]. rewrite IH by (intros H; apply N1; now right). f_equal. unfold bump. destruct (Nat.eq_dec k m0) as [->|]; [exfalso; apply N1; now left|reflexivity].
          - destruct Hi as [->|Hi]; [contradiction|]. rewrite <- app_assoc. apply Permutation.Permutation_app_head. now apply IH. }
        apply G; [apply seq_NoDup|apply in_seq; lia].
  - replace (word (fun _ => 0%nat)) with (@nil index); [reflexivity|]. unfold word. induction (seq 0 n) as [|m l IH]; [reflexivity|]. cbn [flat_map repeat app]. exact IH.
Qed.
End Lin.

(** ** Products of stationary functions *)
Section Prod.
Variables (n : nat) (T : nat -> nat) (g : nat -> nat -> R -> R).
Hypothesis Hg : forall m, (m < n)%nat -> chain (g m) (T m).
Hypothesis He : forall m, (m < n)%nat -> even_fun (g m 0%nat).
Hypothesis Hp : forall m, (m < n)%nat -> psd_kernel (fun x y : R => g m 0%nat (x - y) : car RF).
Definition Gd (m i j : nat) (s t : R) : R := lk (g m) (i, s) (j, t).
Definition prior (x y : array) : R := @tensor RF R n (fun m => Gd m 0%nat 0%nat) (fun m => x [m]) (fun m => y [m]).
Lemma Gd_derivatives : derivatives n T T Gd.
Proof.
  intros m i j s t Hm. unfold Gd, lk. cbn [fst snd]. destruct (Hg m Hm) as [D _]. split; intros Hi Hj.
  - apply is_derive_scal. evar_last; [apply (is_derive_comp (g m (i + j)%nat) (fun u => u - t)); [apply D; lia|auto_derive; [trivial|reflexivity]]|].
    unfold scal. cbn -[lk]. unfold mult. cbn -[lk]. ring.
  - evar_last; [apply is_derive_scal; apply (is_derive_comp (g m (i + j)%nat) (fun u => s - u)); [apply D; lia|auto_derive; [trivial|reflexivity]]|].
    unfold scal. cbn -[lk]. unfold mult. cbn -[lk]. rewrite (Nat.add_succ_r i j). ring.
Qed.
Definition schain (t : tterms) : chains := map (fun q => (fst q, fun m i s => Gd m i (mi_entry (fst (snd q)) [m]) s (snd (snd q) [m]))) t.
Lemma schain_ok t : tdom n T t -> chain_ok n T (schain t).
Proof.
  intros Dt c H Hi m i s Hm Li. apply in_map_iff in Hi as (q & E & Hq). injection E as <- <-. apply (Gd_derivatives m i _ s (snd (snd q) [m]) Hm); [exact Li|now apply (Dt q Hq)].
Qed.
Lemma section_Q t x : tdom n T t -> tfun t (prior x) = Q n (schain t) (fun _ => 0%nat) x.
Proof.
  intros Dt. unfold tfun, Q, schain. rewrite map_map. change (@total) with (@fsum RF). unfold sumR. f_equal. apply map_ext_in. intros [c [b y]] Hq. cbn [fst snd]. f_equal.
  destruct (Dt _ Hq) as [Sb Fb]. cbn [fst snd] in Sb, Fb.
  assert (K1 : chain_ok n T [(1, fun m j t => Gd m 0%nat j (x [m]) t)]).
  { intros c' H [E|[]]. injection E as <- <-. intros m i s Hm Li. apply (Gd_derivatives m 0%nat i (x [m]) s Hm); [lia|exact Li]. }
  transitivity (pderiv b (Q n [(1, fun m j t => Gd m 0%nat j (x [m]) t)] (fun _ => 0%nat)) y).
  - f_equal. extensionality y'. unfold Q, prodQ, total. cbn [map fold_right]. rewrite Rmult_1_l, Rplus_0_r. reflexivity.
  - rewrite (pderiv_Q n T _ b K1 Sb Fb). unfold Q, prodQ, total. cbn [map fold_right]. rewrite Rmult_1_l, Rplus_0_r. reflexivity.
Qed.
Lemma Q_coords l os : coords n (Q n l os).
Proof.
  intros x y A. unfold Q. f_equal. apply map_ext. intros [c H]. f_equal. unfold prodQ. f_equal. apply map_ext_in. intros m Hm. apply in_seq in Hm. rewrite (A [m]); [reflexivity|]. apply one_index. lia.
Qed.
Lemma section_regular t : tdom n T t -> regular n T (fun x => tfun t (prior x)).
Proof.
  intros Dt. replace (fun x => tfun t (prior x)) with (Q n (schain t) (fun _ => 0%nat)) by (extensionality x; symmetry; now apply section_Q).
  split; [|apply Q_coords]. exists (Q n (schain t)). split; [|reflexivity]. apply Q_partials. now apply schain_ok.
Qed.
(** The covariance of two combinations. *)
Definition tcov (s t : tterms) : R := tfun s (fun x => tfun t (prior x)).
Notation KT := (tk (fun m => lk (g m)) n).
Lemma tcov_sum s t : tdom n T s -> tdom n T t -> tcov s t = sumR (fun p => sumR (fun q => fst p * fst q * KT (zof (snd p)) (zof (snd q))) t) s.
Proof.
  intros Ds Dt. unfold tcov. replace (fun x => tfun t (prior x)) with (Q n (schain t) (fun _ => 0%nat)) by (extensionality x; symmetry; now apply section_Q).
  unfold tfun. apply sumR_ext. intros [c [a x]] Hp'. destruct (Ds _ Hp') as [Sa Fa]. cbn [fst snd] in *. rewrite (pderiv_Q n T _ a (schain_ok t Dt) Sa Fa).
  unfold Q, schain. rewrite map_map. change (@total) with (@fsum RF).
  transitivity (c * sumR (fun q => fst q * prodQ (fun m i s => Gd m i (mi_entry (fst (snd q)) [m]) s (snd (snd q) [m])) (fun m => mi_entry a [m]) x (seq 0 n)) t); [reflexivity|].
  rewrite sumR_scal. apply sumR_ext. intros q _. rewrite <- Rmult_assoc. reflexivity.
Qed.
Notation KC := (tk (fun m => lkT (g m) (T m)) n).
Lemma KT_KC z z' : (forall m, (m < n)%nat -> (fst (z m) <= T m)%nat) -> (forall m, (m < n)%nat -> (fst (z' m) <= T m)%nat) -> KT z z' = KC z z'.
Proof. intros H H'. unfold tk. f_equal. apply map_ext_in. intros m Hm. apply in_seq in Hm. symmetry. apply lkT_ok; [apply H|apply H']; lia. Qed.
Lemma zof_fits s p : tdom n T s -> In p s -> forall m, (m < n)%nat -> (fst (zof (snd p) m) <= T m)%nat.
Proof. intros Ds H m Hm. now apply (Ds p H). Qed.
Lemma tcov_sym s t : tdom n T s -> tdom n T t -> tcov s t = tcov t s.
Proof.
  intros Ds Dt. rewrite !tcov_sum by assumption. rewrite sumR_swap. apply sumR_ext. intros q Hq. apply sumR_ext. intros p Hp'.
  rewrite !KT_KC by (intros m Hm; (now apply (zof_fits s)) || now apply (zof_fits t)).
  rewrite (tk_sym (fun m => lkT (g m) (T m)) n); [ring|]. intros m Hm. apply lkT_sym; auto.
Qed.
Definition zlist (s : tterms) : list (R * (nat -> nat * R)) := map (fun p => (fst p, zof (snd p))) s.
Lemma tcov_form s : tdom n T s -> tcov s s = form KC (zlist s).
Proof.
  intros Ds. rewrite tcov_sum by assumption. unfold form, zlist. rewrite sumR_map. apply sumR_ext. intros p Hp'. rewrite sumR_map. apply sumR_ext. intros q Hq. cbn [fst snd].
  rewrite KT_KC by (intros m Hm; now apply (zof_fits s)). reflexivity.
Qed.
Lemma tcov_nonneg s : tdom n T s -> 0 <= tcov s s.
Proof.
  intros Ds. rewrite tcov_form by exact Ds. apply (tk_psd (fun m => lkT (g m) (T m)) n). intros m Hm. split; [apply lkT_sym; auto|apply lkT_psd; auto].
Qed.
Hypothesis Hs : forall m, (m < n)%nat -> strict_on (fun v => fst v <= T m)%nat (lk (g m)).
(** Combinations without variance vanish on all functions of the coordinates. *)
Theorem tcov_null_local s : tdom n T s -> tcov s s = 0 -> forall phi, local n phi -> sumR (fun p => fst p * phi (zof (snd p))) s = 0.
Proof.
  intros Ds Z phi C. rewrite tcov_form in Z by exact Ds.
  assert (S : strict_in (local n) (fun z => forall m, (m < n)%nat -> (fst (z m) <= T m)%nat) KC).
  { apply (tk_strict nR_dec (fun m v => fst v <= T m)%nat). intros m Hm. split; [apply lkT_sym; auto|]. split; [apply lkT_psd; auto|].
    intros l O Fz. apply (Hs m Hm l O). now rewrite <- (form_cut (g m) (T m)). }
  specialize (S (zlist s)). unfold zlist in S at 1. specialize (S ltac:(intros p Hp'; apply in_map_iff in Hp' as (q & <- & Hq); cbn [snd]; now apply (zof_fits s)) Z phi C).
  unfold zlist in S. now rewrite sumR_map in S.
Qed.
Theorem tcov_null s : tdom n T s -> tcov s s = 0 -> forall f, coords n f -> tfun s f = 0.
Proof.
  intros Ds Z f C. rewrite <- (tcov_null_local s Ds Z (jet n f) (jet_local n f C)). unfold tfun. apply sumR_ext. intros p Hp'. f_equal. symmetry. apply jet_zof; [exact C|]. now apply (Ds p).
Qed.
(** Conversely. *)
Lemma vanish_null s : tdom n T s -> (forall f, regular n T f -> tfun s f = 0) -> tcov s s = 0.
Proof. intros Ds V. apply V. now apply section_regular. Qed.
End Prod.

(** ** Values at points *)
Definition mi0 (n : nat) : mi := mi_of [n] (fun _ => 0%nat).
Lemma mi0_entry n m : (m < n)%nat -> mi_entry (mi0 n) [m] = 0%nat.
Proof. intros H. apply (mi_is_entry _ [n] (fun _ => 0%nat)); [apply mi_of_is|now apply one_index]. Qed.
Lemma pderiv_mi0 n f : pderiv (mi0 n) f = f.
Proof.
  rewrite (pderiv_dord n (mi0 n) f eq_refl), (dord_ext n _ (fun _ => 0%nat)) by apply mi0_entry. unfold dord. induction (seq 0 n) as [|m l IH]; [reflexivity|exact IH].
Qed.
