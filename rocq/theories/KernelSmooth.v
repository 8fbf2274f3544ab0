(** Finite sums of polynomials times ExpQuad kernels: smooth in both arguments, closed
    under derivatives in either argument, and derivatives in different arguments
    commute. *)
From Coq Require Import List Reals Lra Lia Bool Arith FunctionalExtensionality.
From Coquelicot Require Import Coquelicot.
From Verif Require Import Base NdArray FunExprModel DiffopModel DiffopSpec DiffopProofs LfoModel LfoSpec LfoSmooth
  KernelModel KernelSpec KernelCalc.
Import ListNotations.
Open Scope R_scope.

(** Polynomials in the coordinates of both points ([false]: first point). *)
Inductive pex := PC (c : R) | PV (a : bool) (i : index) | PAdd (p q : pex) | PMul (p q : pex).
Fixpoint pev (q : pex) (x0 x1 : array) : R :=
  match q with
  | PC c => c
  | PV a i => if a then x1 i else x0 i
  | PAdd p q => pev p x0 x1 + pev q x0 x1
  | PMul p q => pev p x0 x1 * pev q x0 x1
  end.
Fixpoint pwf (sh : shape) (q : pex) : Prop :=
  match q with
  | PC _ => True
  | PV _ i => valid_index sh i
  | PAdd p q | PMul p q => pwf sh p /\ pwf sh q
  end.
Definition kr (a b : bool) (i j : index) : R := if Bool.eqb a b then (if list_eq_dec Nat.eq_dec i j then 1 else 0) else 0.
Fixpoint pdv (a : bool) (i : index) (q : pex) : pex :=
  match q with
  | PC _ => PC 0
  | PV b j => PC (kr a b j i)
  | PAdd p q => PAdd (pdv a i p) (pdv a i q)
  | PMul p q => PAdd (PMul (pdv a i p) q) (PMul p (pdv a i q))
  end.
Lemma pdv_wf sh a i q : pwf sh q -> pwf sh (pdv a i q).
Proof. induction q; cbn; tauto. Qed.
Lemma pdv_comm a b i j q x0 x1 : pev (pdv a i (pdv b j q)) x0 x1 = pev (pdv b j (pdv a i q)) x0 x1.
Proof.
  induction q as [c|c k|p IHp q IHq|p IHp q IHq]; cbn; try reflexivity.
  - now rewrite IHp, IHq.
  - rewrite IHp, IHq. ring.
Qed.

(** One term: a polynomial times [exp(-1/2 sum b_j (x0_j - x1_j)^2)]. *)
Record term := Term { t_poly : pex; t_prec : array }.
Definition tsgn (a : bool) : R := if a then -1 else 1.
Definition expo (sh : shape) (b x0 x1 : array) : R :=
  exp (- (/ 2) * total (map (fun i => b i * (x0 i - x1 i) ^ 2) (all_indices sh))).
Definition tev (sh : shape) (t : term) (x0 x1 : array) : R := pev (t_poly t) x0 x1 * expo sh (t_prec t) x0 x1.
Definition tsev (sh : shape) (ts : list term) (x0 x1 : array) : R := total (map (fun t => tev sh t x0 x1) ts).
Definition epoly (a : bool) (i : index) (b : array) : pex :=
  PMul (PC (- tsgn a * b i)) (PAdd (PV false i) (PMul (PC (-1)) (PV true i))).
Definition tdv (a : bool) (i : index) (t : term) : term :=
  Term (PAdd (pdv a i (t_poly t)) (PMul (t_poly t) (epoly a i (t_prec t)))) (t_prec t).
Definition tswf (sh : shape) (ts : list term) : Prop := List.Forall (fun t => pwf sh (t_poly t)) ts.
Lemma tdv_wf sh a i ts : valid_index sh i -> tswf sh ts -> tswf sh (map (tdv a i) ts).
Proof.
  intros V W. apply List.Forall_map. apply (List.Forall_impl _ (P := fun t => pwf sh (t_poly t))); [|exact W].
  intros t Wt. cbn. repeat split; try assumption. now apply pdv_wf.
Qed.
Lemma tdv_comm sh a b i j ts x0 x1 : a <> b ->
  tsev sh (map (tdv a i) (map (tdv b j) ts)) x0 x1 = tsev sh (map (tdv b j) (map (tdv a i) ts)) x0 x1.
Proof.
  intros ab. unfold tsev. rewrite !map_map. apply total_ext. intros t _. unfold tev. cbn [tdv t_poly t_prec].
  f_equal. cbn [pev pdv epoly]. rewrite (pdv_comm a b i j). unfold kr, tsgn.
  generalize (pev (pdv b j (pdv a i (t_poly t))) x0 x1) (pev (pdv a i (t_poly t)) x0 x1) (pev (pdv b j (t_poly t)) x0 x1) (pev (t_poly t) x0 x1).
  intros p1 p2 p3 p4. generalize (t_prec t). intros h.
  destruct a, b; try congruence; cbn [Bool.eqb];
  (destruct (list_eq_dec Nat.eq_dec i j) as [E1|n]; [subst i; destruct (list_eq_dec Nat.eq_dec j j) as [_|n]; [ring|now elim n]|];
   destruct (list_eq_dec Nat.eq_dec j i) as [E2|_]; [now elim n|];
   try (destruct (list_eq_dec Nat.eq_dec j j) as [_|n']; [|now elim n']);
   try (destruct (list_eq_dec Nat.eq_dec i i) as [_|n']; [|now elim n']); ring).
Qed.

(** Moving one of the points along a line. *)
Definition line (x : array) (t : R) (v : array) : array := fun j => x j + t * v j.
Definition mv (a : bool) (x0 x1 : array) (t : R) (v : array) : array * array :=
  if a then (x0, line x1 t v) else (line x0 t v, x1).
Lemma line0 x v : line x 0 v = x.
Proof. extensionality j. unfold line. ring. Qed.
Lemma mv0 a x0 x1 v : mv a x0 x1 0 v = (x0, x1).
Proof. unfold mv. now destruct a; rewrite line0. Qed.
Lemma pev_line sh a q (x0 x1 v : array) : pwf sh q ->
  is_derive (fun t => pev q (fst (mv a x0 x1 t v)) (snd (mv a x0 x1 t v))) 0
    (total (map (fun i => v i * pev (pdv a i q) x0 x1) (all_indices sh))).
Proof.
  induction q as [c|c k|p IHp q IHq|p IHp q IHq]; cbn [pwf]; intros W.
  - cbn [pev pdv]. rewrite total_zero by (intros; ring). apply @is_derive_const.
  - cbn [pev pdv]. unfold kr, mv. destruct a, c; cbn [Bool.eqb fst snd].
    + rewrite (total_ext _ (fun i => (if list_eq_dec Nat.eq_dec i k then 1 else 0) * v i)).
      2:{ intros i _. destruct (list_eq_dec Nat.eq_dec k i), (list_eq_dec Nat.eq_dec i k); try congruence; ring. }
      rewrite total_single; [|apply all_nodup|now apply all_indices_spec]. unfold line. auto_derive; [trivial|ring].
    + rewrite total_zero by (intros; ring). apply @is_derive_const.
    + rewrite total_zero by (intros; ring). apply @is_derive_const.
    + rewrite (total_ext _ (fun i => (if list_eq_dec Nat.eq_dec i k then 1 else 0) * v i)).
      2:{ intros i _. destruct (list_eq_dec Nat.eq_dec k i), (list_eq_dec Nat.eq_dec i k); try congruence; ring. }
      rewrite total_single; [|apply all_nodup|now apply all_indices_spec]. unfold line. auto_derive; [trivial|ring].
  - destruct W as [Wp Wq]. cbn [pev pdv]. rewrite (total_ext _ (fun i => v i * pev (pdv a i p) x0 x1 + v i * pev (pdv a i q) x0 x1)) by (intros; ring).
    rewrite total_plus. apply @is_derive_plus; auto.
  - destruct W as [Wp Wq]. cbn [pev pdv].
    rewrite (total_ext _ (fun i => pev q x0 x1 * (v i * pev (pdv a i p) x0 x1) + pev p x0 x1 * (v i * pev (pdv a i q) x0 x1))) by (intros; ring).
    rewrite total_plus, !total_mult.
    pose proof (is_derive_mult (fun t => pev p (fst (mv a x0 x1 t v)) (snd (mv a x0 x1 t v)))
                  (fun t => pev q (fst (mv a x0 x1 t v)) (snd (mv a x0 x1 t v))) 0 _ _ (IHp Wp) (IHq Wq) Rmult_comm) as M.
    cbn beta in M. rewrite mv0 in M. cbn [fst snd] in M.
    match type of M with is_derive _ _ ?l => match goal with |- is_derive _ _ ?r => replace r with l; [exact M|] end end.
    unfold plus, mult; cbn. ring.
Qed.
Lemma quad_line (b x0 x1 v : array) a l :
  is_derive (fun t => total (map (fun i => b i * (fst (mv a x0 x1 t v) i - snd (mv a x0 x1 t v) i) ^ 2) l)) 0
    (total (map (fun i => v i * (tsgn a * 2 * b i * (x0 i - x1 i))) l)).
Proof.
  induction l as [|i l IH].
  { change (is_derive (fun _ : R => 0) 0 0). apply (is_derive_const (V := R_NormedModule)). }
  cbn [map]. unfold total. cbn [fold_right].
  fold (total (map (fun i => v i * (tsgn a * 2 * b i * (x0 i - x1 i))) l)).
  apply @is_derive_plus; [|exact IH]. unfold mv, line, tsgn. destruct a; cbn [fst snd]; auto_derive; trivial; ring.
Qed.
Lemma tev_line sh a t (x0 x1 v : array) : pwf sh (t_poly t) ->
  is_derive (fun s => tev sh t (fst (mv a x0 x1 s v)) (snd (mv a x0 x1 s v))) 0
    (total (map (fun i => v i * tev sh (tdv a i t) x0 x1) (all_indices sh))).
Proof.
  intros W. unfold tev. cbn [tdv t_poly t_prec pev epoly].
  rewrite (total_ext _ (fun i => expo sh (t_prec t) x0 x1 * (v i * pev (pdv a i (t_poly t)) x0 x1)
     + pev (t_poly t) x0 x1 * expo sh (t_prec t) x0 x1 * (- (/ 2) * (v i * (tsgn a * 2 * t_prec t i * (x0 i - x1 i)))))) by (intros; field).
  rewrite total_plus, !total_mult.
  pose proof (pev_line sh a (t_poly t) x0 x1 v W) as P.
  assert (E : is_derive (fun s => expo sh (t_prec t) (fst (mv a x0 x1 s v)) (snd (mv a x0 x1 s v))) 0
     ((- (/ 2) * total (map (fun i => v i * (tsgn a * 2 * t_prec t i * (x0 i - x1 i))) (all_indices sh))) * expo sh (t_prec t) x0 x1)).
  { unfold expo.
    pose proof (is_derive_comp exp (fun s => - (/ 2) * total (map (fun i => t_prec t i * (fst (mv a x0 x1 s v) i - snd (mv a x0 x1 s v) i) ^ 2) (all_indices sh))) 0
      (exp (- (/ 2) * total (map (fun i => t_prec t i * (x0 i - x1 i) ^ 2) (all_indices sh))))
      (- (/ 2) * total (map (fun i => v i * (tsgn a * 2 * t_prec t i * (x0 i - x1 i))) (all_indices sh)))) as M.
    cbn beta in M. rewrite mv0 in M. cbn [fst snd] in M. apply M; [apply is_derive_exp|].
    apply @is_derive_scal. apply quad_line. }
  pose proof (is_derive_mult (fun s => pev (t_poly t) (fst (mv a x0 x1 s v)) (snd (mv a x0 x1 s v)))
     (fun s => expo sh (t_prec t) (fst (mv a x0 x1 s v)) (snd (mv a x0 x1 s v))) 0 _ _ P E Rmult_comm) as M.
  cbn beta in M. rewrite mv0 in M. cbn [fst snd] in M.
  match type of M with is_derive _ _ ?l => match goal with |- is_derive _ _ ?r => replace r with l; [exact M|] end end.
  unfold plus, mult; cbn. ring.
Qed.
Lemma tsev_line sh a ts (x0 x1 v : array) : tswf sh ts ->
  is_derive (fun s => tsev sh ts (fst (mv a x0 x1 s v)) (snd (mv a x0 x1 s v))) 0
    (total (map (fun i => v i * tsev sh (map (tdv a i) ts) x0 x1) (all_indices sh))).
Proof.
  induction ts as [|t ts IH]; intros W.
  - unfold tsev. cbn. rewrite total_zero by (intros; ring). apply @is_derive_const.
  - inversion W as [|? ? Wt Ws]; subst. unfold tsev. cbn [map]. unfold total at 1. cbn [fold_right].
    rewrite (total_ext _ (fun i => v i * tev sh (tdv a i t) x0 x1 + v i * tsev sh (map (tdv a i) ts) x0 x1)).
    2:{ intros i _. unfold total at 1. cbn [fold_right]. unfold tsev, total. ring. }
    rewrite total_plus. apply @is_derive_plus; [now apply tev_line|now apply IH].
Qed.

(** The class of kernels. *)
Definition kclass (sh : shape) (k : kernel) : Prop := exists ts, tswf sh ts /\ k = tsev sh ts.
Definition argb (a : nat) : bool := match a with O => false | _ => true end.
Lemma pd_class sh ts a i : tswf sh ts -> valid_index sh i -> in_arg a (pd i) (tsev sh ts) = tsev sh (map (tdv (argb a) i) ts).
Proof.
  intros W V. extensionality x0. extensionality x1. unfold in_arg.
  assert (S : forall l : R, l = total (map (fun j => unitv i j * tsev sh (map (tdv (argb a) j) ts) x0 x1) (all_indices sh)) ->
              l = tsev sh (map (tdv (argb a) i) ts) x0 x1).
  { intros l ->. unfold unitv. apply total_single; [apply all_nodup|now apply all_indices_spec]. }
  pose proof (tsev_line sh (argb a) ts x0 x1 (unitv i) W) as D.
  destruct a; cbn [argb mv] in *; apply S; apply pd_eq; exact D.
Qed.
Lemma class_pd sh k a i : kclass sh k -> valid_index sh i -> kclass sh (in_arg a (pd i) k).
Proof. intros (ts & W & ->) V. exists (map (tdv (argb a) i) ts). split; [now apply tdv_wf|now apply pd_class]. Qed.
Lemma class_diff1 sh k : kclass sh k -> (forall x1, diff1 sh (fun x => k x x1)) /\ (forall x0, diff1 sh (fun x => k x0 x)).
Proof.
  intros (ts & W & ->). split; intros c v x.
  - pose proof (tsev_line sh false ts x c v W) as D. cbn [mv fst snd] in D. unfold line in D.
    rewrite (total_ext _ (fun i => v i * tsev sh (map (tdv false i) ts) x c)); [exact D|].
    intros i I. apply all_indices_spec in I. f_equal. exact (f_equal (fun k => k x c) (pd_class sh ts 0 i W I)).
  - pose proof (tsev_line sh true ts c x v W) as D. cbn [mv fst snd] in D. unfold line in D.
    rewrite (total_ext _ (fun i => v i * tsev sh (map (tdv true i) ts) c x)); [exact D|].
    intros i I. apply all_indices_spec in I. f_equal. exact (f_equal (fun k => k c x) (pd_class sh ts 1 i W I)).
Qed.
Lemma class_smooth sh k : kclass sh k -> (forall x1, smooth sh (fun x => k x x1)) /\ (forall x0, smooth sh (fun x => k x0 x)).
Proof.
  intros K. split; intros c.
  - apply (smooth_class sh (fun g => exists k, kclass sh k /\ g = fun x => k x c)).
    + intros g (k' & K' & ->). now apply class_diff1.
    + intros g i (k' & K' & ->) V. exists (in_arg 0 (pd i) k'). split; [now apply class_pd|reflexivity].
    + now exists k.
  - apply (smooth_class sh (fun g => exists k, kclass sh k /\ g = fun x => k c x)).
    + intros g (k' & K' & ->). now apply class_diff1.
    + intros g i (k' & K' & ->) V. exists (in_arg 1 (pd i) k'). split; [now apply class_pd|reflexivity].
    + now exists k.
Qed.
Lemma class_plus sh k k' : kclass sh k -> kclass sh k' -> kclass sh (fun x0 x1 => k x0 x1 + k' x0 x1).
Proof.
  intros (ts & W & ->) (ts' & W' & ->). exists (ts ++ ts'). split; [now apply List.Forall_app|].
  extensionality x0. extensionality x1. unfold tsev. now rewrite map_app, total_app.
Qed.
Lemma class_zero sh : kclass sh (fun _ _ => 0).
Proof. exists []. split; [constructor|reflexivity]. Qed.
Lemma class_scal sh s k : kclass sh k -> kclass sh (fun x0 x1 => s * k x0 x1).
Proof.
  intros (ts & W & ->). exists (map (fun t => Term (PMul (PC s) (t_poly t)) (t_prec t)) ts). split.
  - apply List.Forall_map. apply (List.Forall_impl _ (P := fun t => pwf sh (t_poly t))); [|exact W]. cbn. tauto.
  - extensionality x0. extensionality x1. unfold tsev. rewrite <- total_mult, map_map. apply total_ext. intros t _.
    unfold tev. cbn. ring.
Qed.
Lemma class_total {A} sh (h : A -> kernel) l : (forall y, In y l -> kclass sh (h y)) ->
  kclass sh (fun x0 x1 => total (map (fun y => h y x0 x1) l)).
Proof.
  intros H. induction l as [|y l IH]; [apply class_zero|]. cbn [map].
  apply (class_plus sh (h y) (fun x0 x1 => total (map (fun y => h y x0 x1) l))); [apply H; now left|]. apply IH. intros; apply H; now right.
Qed.
(** Derivatives in different arguments commute. *)
Lemma class_comm sh k i j : kclass sh k -> valid_index sh i -> valid_index sh j ->
  in_arg 0 (pd i) (in_arg 1 (pd j) k) = in_arg 1 (pd j) (in_arg 0 (pd i) k).
Proof.
  intros (ts & W & ->) V V'. rewrite !pd_class by (try apply pd_class; try apply tdv_wf; assumption).
  extensionality x0. extensionality x1. now apply tdv_comm.
Qed.
