(** Smooth functions of several coordinates: closure under linear combinations and
    partial derivatives; the directional derivatives computed by jax. *)
From Coq Require Import List Reals Lra Lia Bool Arith ZArith FunctionalExtensionality.
From Coquelicot Require Import Coquelicot.
From Verif Require Import Base NdArray PolyClassModel PolyCalc FunExprModel FunExprProofs
  DiffopModel DiffopSpec DiffopProofs DiffopFactor LfoModel LfoSpec.
Import ListNotations.
Open Scope R_scope.

Lemma total_app l1 l2 : total (l1 ++ l2) = total l1 + total l2.
Proof. apply fold_right_Rplus_app. Qed.
Lemma total_ext {A} (g h : A -> R) l : (forall a, In a l -> g a = h a) -> total (map g l) = total (map h l).
Proof. intros H. f_equal. apply map_ext_in. exact H. Qed.
Lemma total_plus {A} (g h : A -> R) l : total (map (fun a => g a + h a) l) = total (map g l) + total (map h l).
Proof. unfold total. induction l as [|a l IH]; cbn; [ring|]. rewrite IH. ring. Qed.
Lemma total_mult {A} (c : R) (g : A -> R) l : total (map (fun a => c * g a) l) = c * total (map g l).
Proof. unfold total. induction l as [|a l IH]; cbn; [ring|]. rewrite IH. ring. Qed.
Lemma total_zero {A} (g : A -> R) l : (forall a, In a l -> g a = 0) -> total (map g l) = 0.
Proof.
  intros H. unfold total. induction l as [|a l IH]; [reflexivity|]. cbn. rewrite IH by (intros; apply H; now right).
  rewrite H by now left. ring.
Qed.
Lemma total_single (g : index -> R) l i : NoDup l -> In i l ->
  total (map (fun j => (if list_eq_dec Nat.eq_dec j i then 1 else 0) * g j) l) = g i.
Proof.
  intros N. induction N as [|j l Hj N IH]; intros I; [destruct I|]. cbn [map]. unfold total. cbn [fold_right].
  fold (total (map (fun j => (if list_eq_dec Nat.eq_dec j i then 1 else 0) * g j) l)).
  destruct (list_eq_dec Nat.eq_dec j i) as [->|ne].
  - rewrite total_zero; [ring|]. intros a Ha. destruct (list_eq_dec Nat.eq_dec a i) as [->|]; [contradiction|ring].
  - destruct I as [->|I]; [congruence|]. rewrite IH by exact I. ring.
Qed.

Lemma iterD_app l1 l2 f : iterD (l1 ++ l2) f = iterD l2 (iterD l1 f).
Proof. apply fold_left_app. Qed.
Lemma iterD_snoc l i f : iterD (l ++ [i]) f = pd i (iterD l f).
Proof. now rewrite iterD_app. Qed.

Lemma Derive_shift (g : R -> R) c : Derive (fun t => g (c + t)) 0 = Derive g c.
Proof.
  unfold Derive. f_equal. apply Lim_ext. intros h. now rewrite Rplus_0_l, Rplus_0_r.
Qed.
Definition unitv (i : index) : array := fun j => if list_eq_dec Nat.eq_dec j i then 1 else 0.
Lemma along_unit x i t : (fun j => x j + t * unitv i j) = upd x i (x i + t).
Proof.
  extensionality j. unfold unitv, upd. destruct (list_eq_dec Nat.eq_dec j i) as [->|]; ring.
Qed.
Lemma pd_along i f x : pd i f x = Derive (fun t => f (fun j => x j + t * unitv i j)) 0.
Proof.
  unfold pd. rewrite <- (Derive_shift (fun t => f (upd x i t)) (x i)). apply Derive_ext. intros t. now rewrite along_unit.
Qed.

(** Differentiable along every line, with the gradient. *)
Definition diff1 (sh : shape) (f : array -> R) : Prop := forall v x : array,
  is_derive (fun t => f (fun j => x j + t * v j)) 0 (total (map (fun i => v i * pd i f x) (all_indices sh))).
Lemma smooth_diff1 sh f : smooth sh f -> diff1 sh f.
Proof. intros S v x. exact (S [] (Forall_nil _) v x). Qed.
Lemma smooth_pd sh f i : valid_index sh i -> smooth sh f -> smooth sh (pd i f).
Proof. intros V S l Hl v x. apply (S (i :: l)). now constructor. Qed.
Lemma smooth_iter sh f i n : valid_index sh i -> smooth sh f -> smooth sh (Nat.iter n (pd i) f).
Proof. intros V S. induction n as [|n IH]; [exact S|]. change (smooth sh (pd i (Nat.iter n (pd i) f))). now apply smooth_pd. Qed.
(** A class of differentiable functions closed under partial derivatives. *)
Lemma smooth_class sh (P : (array -> R) -> Prop) :
  (forall g, P g -> diff1 sh g) -> (forall g i, P g -> valid_index sh i -> P (pd i g)) ->
  forall f, P f -> smooth sh f.
Proof.
  intros H1 H2 f Pf l Hl. apply H1. revert f Pf. induction Hl as [|i l Vi Hl IH]; intros f Pf; [exact Pf|].
  apply IH. now apply H2.
Qed.
(** The partial derivative from a formula for the derivatives along lines. *)
Lemma pd_eq i f x l : is_derive (fun t => f (fun j => x j + t * unitv i j)) 0 l -> pd i f x = l.
Proof. intros H. rewrite pd_along. now apply is_derive_unique. Qed.
Lemma diff1_ex sh f v x : diff1 sh f -> ex_derive (fun t => f (fun j => x j + t * v j)) 0.
Proof. intros D. eexists. apply D. Qed.

Lemma pd_lin sh i a f g x : diff1 sh f -> diff1 sh g -> pd i (fun y => a * f y + g y) x = a * pd i f x + pd i g x.
Proof.
  intros Df Dg. rewrite !pd_along. rewrite Derive_plus, Derive_scal; [reflexivity| |].
  - apply ex_derive_scal. eapply diff1_ex; eauto.
  - eapply diff1_ex; eauto.
Qed.
Lemma diff1_lin sh a f g : diff1 sh f -> diff1 sh g -> diff1 sh (fun y => a * f y + g y).
Proof.
  intros Df Dg v x.
  rewrite (total_ext _ (fun i => a * (v i * pd i f x) + v i * pd i g x)).
  2:{ intros i _. rewrite (pd_lin sh) by assumption. ring. }
  rewrite total_plus, total_mult. apply @is_derive_plus; [|apply Dg]. apply is_derive_scal. apply Df.
Qed.
Lemma smooth_lin sh a f g : smooth sh f -> smooth sh g -> smooth sh (fun y => a * f y + g y).
Proof.
  intros Sf Sg. apply (smooth_class sh (fun h => exists f g, smooth sh f /\ smooth sh g /\ h = fun y => a * f y + g y)).
  - intros h (f' & g' & S1 & S2 & ->). apply diff1_lin; now apply smooth_diff1.
  - intros h i (f' & g' & S1 & S2 & ->) V. exists (pd i f'), (pd i g'). split; [now apply smooth_pd|]. split; [now apply smooth_pd|].
    extensionality y. apply (pd_lin sh); now apply smooth_diff1.
  - exists f, g. auto.
Qed.
Lemma pd_const i c x : pd i (fun _ => c) x = 0.
Proof. unfold pd. apply Derive_const. Qed.
Lemma smooth_const sh c : smooth sh (fun _ => c).
Proof.
  apply (smooth_class sh (fun h => exists c, h = fun _ => c)).
  - intros h (c' & ->) v x. rewrite total_zero by (intros; rewrite pd_const; ring). apply @is_derive_const.
  - intros h i (c' & ->) V. exists 0. extensionality y. apply pd_const.
  - now exists c.
Qed.
Lemma smooth_scal sh a f : smooth sh f -> smooth sh (fun y => a * f y).
Proof.
  intros S. replace (fun y => a * f y) with (fun y => a * f y + 0) by (extensionality y; ring).
  apply smooth_lin; [exact S|apply smooth_const].
Qed.
Lemma smooth_plus sh f g : smooth sh f -> smooth sh g -> smooth sh (fun y => f y + g y).
Proof.
  intros S1 S2. replace (fun y => f y + g y) with (fun y => 1 * f y + g y) by (extensionality y; ring).
  now apply smooth_lin.
Qed.
Lemma smooth_total {A} sh (h : A -> array -> R) l : (forall a, In a l -> smooth sh (h a)) ->
  smooth sh (fun x => total (map (fun a => h a x) l)).
Proof.
  induction l as [|a l IH]; intros H; [exact (smooth_const sh 0)|].
  change (smooth sh (fun x => h a x + total (map (fun a => h a x) l))). apply smooth_plus; [apply H; now left|].
  apply IH. intros b Hb. apply H. now right.
Qed.
Lemma pd_scal sh i a f x : smooth sh f -> pd i (fun y => a * f y) x = a * pd i f x.
Proof.
  intros S. replace (fun y => a * f y) with (fun y => a * f y + 0) by (extensionality y; ring).
  rewrite (pd_lin sh i a f (fun _ => 0)); [|now apply smooth_diff1|apply smooth_diff1, smooth_const]. rewrite pd_const. ring.
Qed.
Lemma pd_plus sh i f g x : smooth sh f -> smooth sh g -> pd i (fun y => f y + g y) x = pd i f x + pd i g x.
Proof.
  intros S1 S2. replace (fun y => f y + g y) with (fun y => 1 * f y + g y) by (extensionality y; ring).
  rewrite (pd_lin sh) by now apply smooth_diff1. ring.
Qed.

(** Polynomials are smooth. *)
Lemma pd_poly p x : py_valid p -> pd [] (fun y => py_eval p (y [])) x = py_eval (py_diff p) (x []).
Proof.
  intros V. apply is_derive_unique. apply (is_derive_ext (py_eval p)).
  - intros t. unfold upd. destruct (list_eq_dec Nat.eq_dec [] []); [reflexivity|congruence].
  - now apply py_diff_is_derive.
Qed.
Lemma smooth_poly p : py_valid p -> smooth [] (fun y => py_eval p (y [])).
Proof.
  intros V. apply (smooth_class [] (fun h => exists p, py_valid p /\ h = fun y => py_eval p (y []))).
  - intros h (q & Vq & ->) v x. cbn [all_indices map]. unfold total. cbn [fold_right]. rewrite pd_poly by exact Vq.
    rewrite Rplus_0_r.
    apply (is_derive_comp (K := R_AbsRing) (V := R_NormedModule) (py_eval q) (fun t => x [] + t * v []) 0 (py_eval (py_diff q) (x [])) (v [])).
    + replace (x [] + 0 * v []) with (x []) by ring. now apply py_diff_is_derive.
    + auto_derive; [exact I|ring].
  - intros h i (q & Vq & ->) Vi. apply valid_index_nil in Vi as ->. exists (py_diff q). split; [apply py_valid_diff|].
    extensionality y. now apply pd_poly.
  - now exists p.
Qed.

(** ** Directional derivatives of jax *)
Lemma jvp_unit f i : jvp f (basis_vec i) = pd i f.
Proof.
  extensionality x. rewrite pd_along. unfold jvp, shift. apply Derive_ext. intros t. f_equal. extensionality j.
  unfold basis_vec, unitv. destruct (shape_eqb_spec j i), (list_eq_dec Nat.eq_dec j i); try congruence; reflexivity.
Qed.
Lemma jvp_total sh f v x : smooth sh f -> jvp f v x = total (map (fun i => v i * pd i f x) (all_indices sh)).
Proof. intros S. apply is_derive_unique. apply (smooth_diff1 _ _ S). Qed.
Lemma mi_dir_unit sh i : valid_index sh i -> mi_dir (unit_mi sh i 1) = basis_vec i.
Proof.
  intros V. extensionality j. unfold mi_dir, basis_vec. change (mi_shape (unit_mi sh i 1)) with sh.
  destruct (index_in_spec sh j) as [Vj|Nj].
  - change (INR (mi_entry (unit_mi sh i 1) j) = if shape_eqb j i then 1 else 0). rewrite entry_unit by exact Vj. unfold axis.
    destruct (shape_eqb_spec j i), (list_eq_dec Nat.eq_dec j i); try congruence; reflexivity.
  - destruct (shape_eqb_spec j i) as [->|]; [contradiction|reflexivity].
Qed.

(** ** Multi-indices *)
Lemma combine_map {A B} (f : A -> B) l : combine l (map f l) = map (fun a => (a, f a)) l.
Proof. induction l as [|a l IH]; [reflexivity|]. cbn. now rewrite IH. Qed.
Lemma mi_arrE a : mi_wf a -> mi_arr a = map (mi_entry a) (all_indices (mi_shape a)).
Proof.
  intros W.
  assert (E : a = mi_of (mi_shape a) (mi_entry a)) by (eapply mi_is_unique; [now apply wf_is|apply mi_of_is]).
  rewrite E at 1. reflexivity.
Qed.
Lemma fold_left_flat_map {A B C} (g : C -> B -> C) (f : A -> list B) l c :
  fold_left g (flat_map f l) c = fold_left (fun c a => fold_left g (f a) c) l c.
Proof. revert c. induction l as [|a l IH]; intros c; [reflexivity|]. cbn. rewrite fold_left_app. apply IH. Qed.
Lemma fold_left_ext_in {A C} (g h : C -> A -> C) l c : (forall c a, In a l -> g c a = h c a) -> fold_left g l c = fold_left h l c.
Proof.
  revert c. induction l as [|a l IH]; intros c H; [reflexivity|]. cbn. rewrite H by now left. apply IH. intros; apply H; now right.
Qed.
Lemma iter_comm {A} (g : A -> A) n x : Nat.iter n g (g x) = g (Nat.iter n g x).
Proof. induction n as [|n IH]; [reflexivity|]. change (g (Nat.iter n g (g x)) = g (g (Nat.iter n g x))). now rewrite IH. Qed.
Lemma fold_repeat {A C} (g : C -> A -> C) a n c : fold_left g (repeat a n) c = Nat.iter n (fun c => g c a) c.
Proof. revert c. induction n as [|n IH]; intros c; [reflexivity|]. cbn [repeat fold_left]. rewrite IH. apply (iter_comm (fun c => g c a)). Qed.
Lemma ffo_value a f : mi_wf a ->
  fold_left (fun df e => jvp df (mi_dir e)) (ffo_list a) f = pderiv a f.
Proof.
  intros W. unfold ffo_list. rewrite fold_left_flat_map, (mi_arrE a W), combine_map.
  unfold pderiv.
  assert (M : forall (l : list index) c, fold_left (fun c x => fold_left (fun df e => jvp df (mi_dir e))
      (let '(i, n) := x in repeat (unit_mi (mi_shape a) i 1) n) c) (map (fun i => (i, mi_entry a i)) l) c =
    fold_left (fun c i => fold_left (fun df e => jvp df (mi_dir e)) (repeat (unit_mi (mi_shape a) i 1) (mi_entry a i)) c) l c).
  { induction l as [|i l IH]; intros c; [reflexivity|]. cbn. apply IH. }
  rewrite M. apply fold_left_ext_in. intros c i Hi. apply all_indices_spec in Hi.
  rewrite fold_repeat. rewrite mi_dir_unit by exact Hi.
  assert (E : (fun h => jvp h (basis_vec i)) = pd i) by (extensionality h; apply jvp_unit). now rewrite E.
Qed.
Lemma pderiv_unit sh i n f : valid_index sh i -> pderiv (unit_mi sh i n) f = Nat.iter n (pd i) f.
Proof.
  intros V. unfold pderiv. change (mi_shape (unit_mi sh i n)) with sh.
  assert (G : forall l, NoDup l -> (forall j, In j l -> valid_index sh j) -> forall h,
    fold_left (fun h j => Nat.iter (mi_entry (unit_mi sh i n) j) (pd j) h) l h =
    if in_dec (list_eq_dec Nat.eq_dec) i l then Nat.iter n (pd i) h else h).
  { intros l N. induction N as [|j l Hj N IH]; intros Hv h; [reflexivity|]. cbn [fold_left].
    rewrite IH by (intros; apply Hv; now right). rewrite entry_unit by (apply Hv; now left). unfold axis.
    destruct (list_eq_dec Nat.eq_dec j i) as [->|ne].
    - destruct (in_dec (list_eq_dec Nat.eq_dec) i l); [contradiction|]. destruct (in_dec (list_eq_dec Nat.eq_dec) i (i :: l)) as [|NI]; [reflexivity|]. exfalso. apply NI. now left.
    - cbn [Nat.iter]. destruct (in_dec (list_eq_dec Nat.eq_dec) i l) as [I|I], (in_dec (list_eq_dec Nat.eq_dec) i (j :: l)) as [I'|I']; try reflexivity.
      + exfalso. apply I'. now right.
      + destruct I' as [->|I']; [congruence|contradiction]. }
  rewrite G; [|apply all_nodup|intros j; apply all_indices_spec].
  destruct (in_dec (list_eq_dec Nat.eq_dec) i (all_indices sh)) as [|NI]; [reflexivity|]. exfalso. apply NI. now apply all_indices_spec.
Qed.
Lemma smooth_pderiv a f : smooth (mi_shape a) f -> smooth (mi_shape a) (pderiv a f).
Proof.
  intros S. unfold pderiv.
  assert (G : forall l, (forall j, In j l -> valid_index (mi_shape a) j) -> forall h, smooth (mi_shape a) h ->
    smooth (mi_shape a) (fold_left (fun h i => Nat.iter (mi_entry a i) (pd i) h) l h)).
  { induction l as [|i l IH]; intros V h Sh; [exact Sh|]. cbn. apply IH; [intros; apply V; now right|].
    apply smooth_iter; [apply V; now left|exact Sh]. }
  apply G; [intros j; apply all_indices_spec|exact S].
Qed.
(** Partial derivatives are linear on smooth functions. *)
Lemma iter_lin sh i n a f g : valid_index sh i -> smooth sh f -> smooth sh g ->
  Nat.iter n (pd i) (fun y => a * f y + g y) = fun y => a * Nat.iter n (pd i) f y + Nat.iter n (pd i) g y.
Proof.
  intros V S1 S2. induction n as [|n IH]; [reflexivity|].
  change (pd i (Nat.iter n (pd i) (fun y => a * f y + g y)) = fun y => a * pd i (Nat.iter n (pd i) f) y + pd i (Nat.iter n (pd i) g) y).
  rewrite IH. extensionality y.
  apply (pd_lin sh); apply smooth_diff1; now apply smooth_iter.
Qed.
Lemma pderiv_lin al a f g : smooth (mi_shape al) f -> smooth (mi_shape al) g ->
  pderiv al (fun y => a * f y + g y) = fun y => a * pderiv al f y + pderiv al g y.
Proof.
  intros S1 S2. unfold pderiv.
  assert (G : forall l, (forall j, In j l -> valid_index (mi_shape al) j) -> forall f g, smooth (mi_shape al) f -> smooth (mi_shape al) g ->
    fold_left (fun h i => Nat.iter (mi_entry al i) (pd i) h) l (fun y => a * f y + g y) =
    fun y => a * fold_left (fun h i => Nat.iter (mi_entry al i) (pd i) h) l f y + fold_left (fun h i => Nat.iter (mi_entry al i) (pd i) h) l g y).
  { induction l as [|i l IH]; intros V f' g' S1' S2'; [reflexivity|]. cbn.
    rewrite (iter_lin (mi_shape al)); [|apply V; now left|assumption|assumption].
    apply IH; [intros; apply V; now right|apply smooth_iter; [apply V; now left|assumption]|apply smooth_iter; [apply V; now left|assumption]]. }
  apply G; [intros j; apply all_indices_spec|exact S1|exact S2].
Qed.
Lemma dsem_lin d a f g : smooth (d_dom d) f -> smooth (d_dom d) g ->
  dsem d (fun y => a * f y + g y) = fun y => a * dsem d f y + dsem d g y.
Proof.
  intros S1 S2. destruct d as [al|al|b sh w|sh v]; cbn [dsem d_dom] in *; try now apply pderiv_lin.
  - extensionality x. rewrite <- total_mult, <- total_plus. apply total_ext. intros i Hi. apply all_indices_spec in Hi.
    pose proof (iter_lin sh i 2 a f g Hi S1 S2) as E. cbn in E. rewrite E. ring.
  - extensionality x. rewrite <- total_mult, <- total_plus. apply total_ext. intros i Hi.
    rewrite (pd_lin sh) by now apply smooth_diff1. ring.
Qed.
Lemma dsem_smooth d f : smooth (d_dom d) f -> smooth (d_dom d) (dsem d f).
Proof.
  intros S. destruct d as [al|al|b sh w|sh v]; cbn [dsem d_dom] in *; try now apply smooth_pderiv.
  - apply (smooth_total sh (fun i x => w i * pd i (pd i f) x)). intros i Hi. apply all_indices_spec in Hi. apply smooth_scal. apply smooth_pd; [exact Hi|]. now apply smooth_pd.
  - apply (smooth_total sh (fun i x => v i * pd i f x)). intros i Hi. apply all_indices_spec in Hi. apply smooth_scal. now apply smooth_pd.
Qed.
