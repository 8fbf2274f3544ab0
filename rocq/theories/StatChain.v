(** Stationary covariance functions of one variable with their derivatives: symmetry, and
    which combinations of derivatives have no variance. *)
From Coq Require Import List Arith Lia Reals Lra FunctionalExtensionality.
From Coquelicot Require Import Coquelicot.
From Verif Require Import Base NdArray FunExprModel DiffopModel DiffopSpec LfoModel LfoSpec LfoSmooth KernelModel KernelSpec KernelSmooth KernelProps
  ParamSpec ParamProofs TensorSchur PsdBase MaternPoly MaternProofs MaternUni ExpQuadProofs PsdMatern PsdDiff PsdSpec
  PsdProps PsdMat PdeCondBase PdeCondSpec SmoothSym GaussStrict PsdIntegral ObsPsdProps LineObs MaternStrict LineStrict.
Import ListNotations.
Open Scope R_scope.

(** No combination of the points in [ok] is without variance unless its weights cancel. *)
Definition strict_on {X} (ok : X -> Prop) (K : X -> X -> R) : Prop :=
  forall l, (forall p, In p l -> ok (snd p)) -> form K l = 0 -> forall phi : X -> R, sumR (fun p => fst p * phi (snd p)) l = 0.
(** [g] and its derivatives up to order [2 T]. *)
Definition chain (g : nat -> R -> R) (T : nat) : Prop :=
  (forall n u, (n < 2 * T)%nat -> is_derive (g n) u (g (S n) u)) /\ (forall n u, (n <= 2 * T)%nat -> continuous (g n) u).
Definition even_fun (f : R -> R) : Prop := forall u, f (- u) = f u.
Lemma derive_opp (f : R -> R) u l : is_derive f (- u) l -> is_derive (fun u => f (- u)) u (- l).
Proof. intros D. evar_last; [apply (is_derive_comp f (fun u => - u)); [exact D|auto_derive; [trivial|reflexivity]]|]. unfold scal. cbn. unfold mult. cbn. ring. Qed.
Lemma parity g T : chain g T -> even_fun (g 0%nat) -> forall n u, (n <= 2 * T)%nat -> g n (- u) = (-1) ^ n * g n u.
Proof.
  intros [D _] E n. induction n as [|n IH]; intros u H; [cbn [pow]; rewrite E; ring|].
  assert (D1 : is_derive (fun u => g n (- u)) u (- g (S n) (- u))) by (apply derive_opp, D; lia).
  assert (D2 : is_derive (fun u => (-1) ^ n * g n u) u ((-1) ^ n * g (S n) u)) by (apply is_derive_scal, D; lia).
  apply is_derive_unique in D1. apply (is_derive_ext _ (fun u => g n (- u))) in D2; [|intros t; symmetry; apply IH; lia]. apply is_derive_unique in D2.
  rewrite D2 in D1. change ((-1) ^ S n) with (-1 * (-1) ^ n). lra.
Qed.
Lemma sign_sq n : (-1) ^ n * (-1) ^ n = 1.
Proof. rewrite <- Rpow_mult_distr. replace (-1 * -1) with 1 by ring. apply pow1. Qed.
Lemma lk_sym g T : chain g T -> even_fun (g 0%nat) -> forall p q, (fst p <= T)%nat -> (fst q <= T)%nat -> lk g p q = lk g q p.
Proof.
  intros C E [i x] [j y] Hi Hj. cbn [fst] in *. unfold lk. cbn [fst snd]. replace (x - y) with (- (y - x)) by ring.
  rewrite (parity g T C E) by lia. rewrite pow_add, (Nat.add_comm i j).
  transitivity ((-1) ^ i * ((-1) ^ j * (-1) ^ j) * g (j + i)%nat (y - x)); [ring|]. rewrite sign_sq. ring.
Qed.
(** Orders beyond [T] are not considered: the kernel that stops there. *)
Definition cut (T : nat) (p : nat * R) : nat * R := (Nat.min T (fst p), snd p).
Definition lkT (g : nat -> R -> R) (T : nat) (p q : nat * R) : R := lk g (cut T p) (cut T q).
Lemma cut_ok T p : (fst (cut T p) <= T)%nat. Proof. cbn. lia. Qed.
Lemma lkT_ok g T p q : (fst p <= T)%nat -> (fst q <= T)%nat -> lkT g T p q = lk g p q.
Proof. destruct p, q. cbn [fst]. intros. unfold lkT, cut. cbn [fst snd]. now rewrite !Nat.min_r by assumption. Qed.
Lemma lkT_sym g T : chain g T -> even_fun (g 0%nat) -> sym (lkT g T).
Proof. intros C E p q. unfold lkT. apply (lk_sym g T C E); apply cut_ok. Qed.
Lemma lkT_psd g T : chain g T -> psd_kernel (fun x y : R => g 0%nat (x - y) : car RF) -> psd_kernel (lkT g T : nat * R -> nat * R -> RF).
Proof.
  intros [D C] P l. change (0 <= form (lkT g T) l).
  assert (E : form (lkT g T) l = form (lk g) (map (fun p => (fst p, cut T (snd p))) l)).
  { unfold form. rewrite sumR_map. apply sumR_ext. intros p _. rewrite sumR_map. apply sumR_ext. reflexivity. }
  rewrite E. apply (line_psd g T D C P). intros p Hp. apply in_map_iff in Hp as (q & <- & _). apply cut_ok.
Qed.
Lemma form_cut g T l : (forall p, In p l -> (fst (snd p) <= T)%nat) -> form (lkT g T) l = form (lk g) l.
Proof. intros H. unfold form. apply sumR_ext. intros p Hp. apply sumR_ext. intros q Hq. f_equal. apply lkT_ok; auto. Qed.
(** Combinations without variance are uncorrelated with everything. *)
Lemma null_section {X} (K : X -> X -> R) l : sym K -> psd_kernel (K : X -> X -> RF) -> form K l = 0 -> forall z, sumR (fun p => fst p * K (snd p) z) l = 0.
Proof.
  intros S P Z z. set (s := sumR (fun p => fst p * K (snd p) z) l).
  assert (H : forall t, 0 <= t * t * K z z + 2 * t * s).
  { intros t. pose proof (P ((t, z) :: l)) as Q. change (0 <= form K ((t, z) :: l)) in Q. rewrite (form_cons K t z l S), Z, Rplus_0_r in Q. exact Q. }
  assert (Kz : 0 <= K z z) by (pose proof (P [(1, z)]) as Q; change (0 <= form K [(1, z)]) in Q; unfold form, sumR in Q; cbn in Q; lra).
  destruct (Req_dec s 0) as [E|N]; [exact E|exfalso].
  destruct Kz as [Kz|Kz].
  - specialize (H (- s / K z z)). replace (- s / K z z * (- s / K z z) * K z z + 2 * (- s / K z z) * s) with (- (s * s / K z z)) in H by (field; lra).
    assert (0 < s * s / K z z); [|lra]. apply Rdiv_lt_0_compat; [|exact Kz]. nra.
  - specialize (H (- s)). rewrite <- Kz in H. nra.
Qed.

(** * Gaussians *)
Fixpoint hq2 (c : R) (n : nat) (u : R) : R * R :=
  match n with
  | 0%nat => (exp (- c * u ^ 2), - 2 * c * u * exp (- c * u ^ 2))
  | S n' => let p := hq2 c n' u in (snd p, - 2 * c * (u * snd p + INR (S n') * fst p))
  end.
(** The derivative of order [n] of [exp (- c u^2)]. *)
Definition hq (c : R) (n : nat) (u : R) : R := fst (hq2 c n u).
Lemma hq_0 c u : hq c 0 u = exp (- c * u ^ 2). Proof. reflexivity. Qed.
Lemma hq_1 c u : hq c 1 u = - 2 * c * u * exp (- c * u ^ 2). Proof. reflexivity. Qed.
Lemma hq_2 c n u : hq c (S (S n)) u = - 2 * c * (u * hq c (S n) u + INR (S n) * hq c n u). Proof. reflexivity. Qed.
Lemma hq_derive c n u : is_derive (hq c n) u (hq c (S n) u).
Proof.
  enough (G : is_derive (hq c n) u (hq c (S n) u) /\ is_derive (hq c (S n)) u (hq c (S (S n)) u)) by apply G.
  induction n as [|n [IH1 IH2]]; split.
  - apply (is_derive_ext (fun u => exp (- c * u ^ 2))); [reflexivity|]. rewrite hq_1. auto_derive; [trivial|]. ring_simplify (c * (u * (u * 1))). cbn. rewrite !Rmult_1_r. ring.
  - apply (is_derive_ext (fun u => - 2 * c * u * exp (- c * u ^ 2))); [reflexivity|]. rewrite hq_2, hq_1, hq_0. auto_derive; [trivial|]. cbn. rewrite !Rmult_1_r. ring.
  - exact IH2.
  - apply (is_derive_ext (fun u => - 2 * c * (u * hq c (S n) u + INR (S n) * hq c n u))); [reflexivity|]. rewrite (hq_2 c (S n)). evar_last.
    + apply is_derive_scal. apply @is_derive_plus; [apply @is_derive_mult; [apply @is_derive_id|exact IH2|apply Rmult_comm]|apply is_derive_scal, IH1].
    + unfold plus, mult, one. cbn -[hq INR]. rewrite (S_INR (S n)). ring.
Qed.
Lemma exp_cont x : continuous exp x.
Proof. apply (ex_derive_continuous exp). auto_derive. trivial. Qed.
Lemma id_cont x : continuous (fun t : R => t) x. Proof. apply continuous_id. Qed.
Lemma hq_cont n : cont2 (fun c u => hq c n u).
Proof.
  assert (Cc : cont2 (fun c _ => c)) by exact (cont2_fst (fun c => c) id_cont).
  assert (Cu : cont2 (fun _ u => u)) by exact (cont2_snd (fun u => u) id_cont).
  assert (C0 : cont2 (fun c u => hq c 0 u)).
  { apply (cont2_ext (fun c u => exp (-1 * c * (u * u)))); [intros c u; rewrite hq_0; f_equal; ring|]. apply (cont2_comp exp); [exact exp_cont|].
    apply (cont2_mult (fun c _ => -1 * c) (fun _ u => u * u)); [apply (cont2_mult (fun _ _ => -1) (fun c _ => c)); [apply cont2_const|exact Cc]|now apply (cont2_mult (fun _ u => u) (fun _ u => u))]. }
  assert (M2 : cont2 (fun c _ => - 2 * c)) by (apply (cont2_mult (fun _ _ => - 2) (fun c _ => c)); [apply cont2_const|exact Cc]).
  enough (G : cont2 (fun c u => hq c n u) /\ cont2 (fun c u => hq c (S n) u)) by apply G.
  induction n as [|n [IH1 IH2]]; split; [exact C0| |exact IH2|].
  - apply (cont2_ext (fun c u => - 2 * c * u * hq c 0 u)); [reflexivity|]. apply (cont2_mult (fun c u => - 2 * c * u) (fun c u => hq c 0 u)); [|exact C0]. now apply (cont2_mult (fun c _ => - 2 * c) (fun _ u => u)).
  - apply (cont2_ext (fun c u => - 2 * c * (u * hq c (S n) u + INR (S n) * hq c n u))); [reflexivity|].
    apply (cont2_mult (fun c _ => - 2 * c) (fun c u => u * hq c (S n) u + INR (S n) * hq c n u)); [exact M2|].
    apply (cont2_add (fun c u => u * hq c (S n) u) (fun c u => INR (S n) * hq c n u)).
    + now apply (cont2_mult (fun _ u => u) (fun c u => hq c (S n) u)).
    + apply (cont2_mult (fun _ _ => INR (S n)) (fun c u => hq c n u)); [apply cont2_const|exact IH1].
Qed.
Lemma hq_chain c T : chain (hq c) T.
Proof. split; intros n u _; [apply hq_derive|]. exact (cont2_right (fun c u => hq c n u) c (hq_cont n) u). Qed.
Lemma hq_even c : even_fun (hq c 0). Proof. intros u. rewrite !hq_0. f_equal. ring. Qed.
Lemma hq_psd c : 0 <= c -> psd_kernel (fun x y : R => hq c 0 (x - y) : car RF).
Proof.
  intros H. apply (psd_ext (fun x y : R => exp (- c * sqdist [tt] (fun _ => 1) (fun _ => x) (fun _ => y)) : car RF)).
  - intros x y. rewrite one_sqdist, hq_0. f_equal. ring.
  - exact (psd_pull (fun a b : unit -> R => exp (- c * sqdist [tt] (fun _ => 1) a b) : car RF) (fun (x : R) (_ : unit) => x) (gauss_psd [tt] (fun _ => 1) c H)).
Qed.
Lemma hq_sym c p q : lk (hq c) p q = lk (hq c) q p.
Proof. apply (lk_sym (hq c) (fst p + fst q) (hq_chain c _) (hq_even c)); lia. Qed.
Lemma list_bound {A} (f : A -> nat) (l : list A) : exists T, forall a, In a l -> (f a <= T)%nat.
Proof.
  induction l as [|a l [T IH]]; [exists 0%nat; intros a []|]. exists (f a + T)%nat. intros b [<-|Hb]; [lia|]. specialize (IH b Hb). lia.
Qed.
Lemma hq_form c l : 0 <= c -> 0 <= form (lk (hq c)) l.
Proof.
  intros H. destruct (list_bound (fun p : R * (nat * R) => fst (snd p)) l) as [T HT].
  destruct (hq_chain c T) as [D C]. exact (line_psd (hq c) T D C (hq_psd c H) l HT).
Qed.
(** The partial derivatives of functions of one variable. *)
Lemma pd_one (h h' : R -> R) : (forall t, is_derive h t (h' t)) -> pd [] (fun a => h (a [])) = fun a => h' (a []).
Proof. intros D. extensionality x. unfold pd. apply is_derive_unique. apply (is_derive_ext h); [|apply D]. intros t. reflexivity. Qed.
Lemma iter_one (F : nat -> R -> R) : (forall n t, is_derive (F n) t (F (S n) t)) -> forall n, Nat.iter n (pd []) (fun a => F 0%nat (a [])) = fun a => F n (a []).
Proof. intros D n. induction n as [|n IH]; [reflexivity|]. cbn [Nat.iter nat_rect]. change (pd [] (Nat.iter n (pd []) (fun a => F 0%nat (a []))) = fun a => F (S n) (a [])). rewrite IH. apply pd_one, D. Qed.
Definition pd_op (n : nat) : lfo := ODiff (DPartial (MI [] [n])).
Lemma pd_op_sem n f : ksem (pd_op n) f = Nat.iter n (pd []) f.
Proof. cbn [pd_op ksem dsem]. unfold pderiv. cbn [mi_shape all_indices fold_left]. reflexivity. Qed.
Lemma diff1_one h h' : (forall t, is_derive h t (h' t)) -> diff1 [] (fun a => h (a [])).
Proof.
  intros D v x. cbn [all_indices map]. rewrite (pd_one h h' D). unfold total. cbn [fold_right]. rewrite Rplus_0_r. evar_last.
  - apply (is_derive_comp h (fun t => x [] + t * v [])); [apply D|]. auto_derive; [trivial|reflexivity].
  - unfold scal. cbn. unfold mult. cbn. rewrite Rmult_0_l, Rplus_0_r, Rmult_1_l. reflexivity.
Qed.
Lemma ci_one (F : nat -> R -> R) : (forall n t, is_derive (F n) t (F (S n) t)) -> c_infty [] (fun a => F 0%nat (a [])).
Proof.
  intros D. apply (ci_class [] (fun f => exists n, f = fun a => F n (a []))).
  - intros f (n & ->). exact (diff1_one _ _ (D n)).
  - intros f i (n & ->) V. apply valid_nil in V. subst i. exists (S n). apply pd_one, D.
  - intros f i j _ Vi Vj. apply valid_nil in Vi, Vj. now subst.
  - now exists 0%nat.
Qed.
(** A function with only one nonzero derivative at [x0]. *)
Definition taylor (x0 : R) (i n : nat) (t : R) : R := if (n <=? i)%nat then (t - x0) ^ (i - n) / INR (fact (i - n)) else 0.
Lemma taylor_derive x0 i n t : is_derive (taylor x0 i n) t (taylor x0 i (S n) t).
Proof.
  unfold taylor. destruct (Nat.leb_spec n i) as [H|H], (Nat.leb_spec (S n) i) as [H'|H']; try lia.
  - replace (i - n)%nat with (S (i - S n)) by lia. set (k := (i - S n)%nat). pose proof (INR_fact_neq_0 k) as N. assert (N' : INR (S k) <> 0) by (apply not_0_INR; lia).
    rewrite fact_simpl, mult_INR. auto_derive; [trivial|]. change (match k with 0%nat => 1 | S _ => INR k + 1 end) with (INR (S k)). 
    replace (t + - x0) with (t - x0) by ring. unfold Rdiv. set (q := (t - x0) ^ k). set (m := INR (S k)) in *. field. auto.
  - replace (i - n)%nat with 0%nat by lia. apply (is_derive_ext (fun _ => 1)); [intros u; cbn; field|]. apply (is_derive_const 1).
  - apply (is_derive_const 0).
Qed.
Lemma taylor_at x0 i n : taylor x0 i n x0 = if Nat.eq_dec n i then 1 else 0.
Proof.
  unfold taylor. destruct (Nat.leb_spec n i), (Nat.eq_dec n i) as [E|E]; try lia.
  - subst. rewrite Nat.sub_diag. cbn. field.
  - replace (x0 - x0) with 0 by ring. rewrite pow_ne_zero by lia. unfold Rdiv. ring.
  - reflexivity.
Qed.
Lemma filter_short {A} (f : A -> bool) l : (length (filter f l) <= length l)%nat.
Proof. induction l as [|a l IH]; cbn; [lia|]. destruct (f a); cbn; lia. Qed.
Lemma sum_by_points {X} (dec : forall x y : X, {x = y} + {x <> y}) (l : list (R * X)) :
  (forall z, sumR (fun p => fst p * if dec (snd p) z then 1 else 0) l = 0) -> forall phi, sumR (fun p => fst p * phi (snd p)) l = 0.
Proof.
  intros H phi. remember (length l) as k eqn:E. revert l H E. induction k as [k IH] using (well_founded_induction lt_wf). intros l H E. destruct l as [|[c x] l]; [reflexivity|].
  set (l' := filter (fun p => if dec (snd p) x then false else true) l).
  assert (S : forall f : X -> R, sumR (fun p => fst p * f (snd p)) ((c, x) :: l) = f x * sumR (fun p => fst p * if dec (snd p) x then 1 else 0) ((c, x) :: l) + sumR (fun p => fst p * f (snd p)) l').
  { intros f. rewrite !sumR_cons. cbn [fst snd]. destruct (dec x x) as [_|N]; [|contradiction]. unfold l'. clear. induction l as [|[d y] l IHl]; [unfold sumR; cbn; ring|].
    rewrite !sumR_cons. cbn [filter fst snd]. destruct (dec y x) as [->|N]; [|rewrite sumR_cons; cbn [fst snd]]; lra. }
  rewrite (S phi), H, Rmult_0_r, Rplus_0_l. apply (IH (length l')); [|  |reflexivity].
  - subst k. cbn [length]. pose proof (filter_short (fun p : R * X => if dec (snd p) x then false else true) l). fold l' in H0. lia.
  - intros z. specialize (S (fun y => if dec y z then 1 else 0)). rewrite !H in S. lra.
Qed.
Definition nR_dec (p q : nat * R) : {p = q} + {p <> q}.
Proof. decide equality; [apply Req_EM_T|apply Nat.eq_dec]. Defined.
Lemma hq_strict c : 0 < c -> strict_on (fun _ => True) (lk (hq c)).
Proof.
  intros Hc l _ Z. apply (sum_by_points nR_dec). intros [i x0].
  destruct (list_bound (fun p : R * (nat * R) => fst (snd p)) l) as [T HT].
  assert (ZT : form (lkT (hq c) T) l = 0) by (rewrite form_cut; [exact Z|exact HT]).
  pose proof (null_section (lkT (hq c) T) l (lkT_sym _ _ (hq_chain c T) (hq_even c)) (lkT_psd _ _ (hq_chain c T) (hq_psd c ltac:(lra))) ZT) as N.
  set (s := map (fun p : R * (nat * R) => (fst p, (pd_op (fst (snd p)), fun _ : index => snd (snd p)))) l).
  assert (D : tdom [] s) by (intros p Hp; apply in_map_iff in Hp as (q & <- & _); reflexivity).
  set (le := / sqrt (2 * c)). assert (Hs : 0 < sqrt (2 * c)) by (apply sqrt_lt_R0; lra).
  assert (Hle : le <> 0) by (apply Rinv_neq_0_compat; lra).
  assert (Sec : forall z, expquad_fun [] (fun _ => le) z = fun a => hq c 0 (a [] - z [])).
  { intros z. extensionality a. rewrite hq_0. unfold expquad_fun. cbn [all_indices map]. unfold total. cbn [fold_right]. f_equal. rewrite Rplus_0_r. unfold le, Rdiv. rewrite Rinv_inv, Rpow_mult_distr, pow2_sqrt by lra. field. }
  assert (U : forall z, dfun s (expquad_fun [] (fun _ => le) z) = 0).
  { intros z. rewrite Sec. unfold dfun, s. rewrite sumR_map. rewrite <- (N (0%nat, z [])). apply sumR_ext. intros [d [j y]] Hp. cbn [fst snd]. f_equal.
    specialize (HT _ Hp). cbn [fst snd] in HT. rewrite lkT_ok by (cbn [fst]; lia). rewrite pd_op_sem.
    pose proof (iter_one (fun n t => hq c n (t - z []))) as I. cbv beta in I. rewrite I.
    - unfold lk. cbn [fst snd pow]. rewrite Nat.add_0_r. ring.
    - intros n t. evar_last; [apply (is_derive_comp (hq c n) (fun t => t - z [])); [apply hq_derive|auto_derive; [trivial|reflexivity]]|]. unfold scal. cbn -[hq]. unfold mult. cbn -[hq]. ring. }
  pose proof (gauss_universal [] (fun _ => le) s (fun _ _ => Hle) D U (fun a => if Req_EM_T (a []) x0 then 1 else 0) (fun a => taylor x0 i 0 (a []))) as G.
  specialize (G ltac:(intros x y A; cbv beta; pose proof (A [] (List.Forall2_nil _)) as A0; cbn in A0; rewrite A0; reflexivity) (ci_one (taylor x0 i) (taylor_derive x0 i))).
  etransitivity; [|exact G]. unfold pfun, s. rewrite sumR_map. apply sumR_ext. intros [d [j y]] _. cbn [fst snd]. rewrite pd_op_sem, (iter_one (taylor x0 i) (taylor_derive x0 i)).
  destruct (nR_dec (j, y) (i, x0)) as [E|E].
  - injection E as -> ->. destruct (Req_EM_T x0 x0) as [_|]; [|contradiction]. rewrite taylor_at. destruct (Nat.eq_dec i i) as [_|]; [ring|contradiction].
  - cbv beta. destruct (Req_EM_T y x0) as [->|]; [|ring]. rewrite taylor_at. destruct (Nat.eq_dec j i) as [->|]; [contradiction|ring].
Qed.
