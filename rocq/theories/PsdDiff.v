(** Positive semidefiniteness passes to derivatives: the joint covariances of derivatives
    of a smooth process are limits of those of difference quotients. *)
From Coq Require Import List Reals Lra Lia Bool Arith FunctionalExtensionality Permutation.
From Coquelicot Require Import Coquelicot.
From Verif Require Import Base NdArray FunExprModel DiffopModel DiffopSpec DiffopProofs
  LfoModel LfoSpec LfoSmooth LfoProofs KernelModel KernelSpec KernelCalc KernelSmooth KernelSound KernelComm
  ParamSpec ParamProofs TensorSpec TensorSchur PsdBase PsdMatern.
Import ListNotations.
Open Scope R_scope.

Lemma sumR_perm {A} (f : A -> R) l l' : Permutation l l' -> sumR f l = sumR f l'.
Proof. induction 1; rewrite ?sumR_cons; [reflexivity|now f_equal|ring|congruence]. Qed.
Lemma sumR_app {A} (f : A -> R) l l' : sumR f (l ++ l') = sumR f l + sumR f l'.
Proof. induction l as [|a l IH]; cbn [app]; [unfold sumR at 2; cbn; ring|]. rewrite !sumR_cons, IH. ring. Qed.
Lemma sumR_total {A} (f : A -> R) l : sumR f l = total (map f l).
Proof. induction l as [|a l IH]; [reflexivity|]. rewrite sumR_cons, IH. reflexivity. Qed.
Section Form.
Context {X : Type}.
Implicit Types (K : X -> X -> R).
Lemma form_perm K l l' : Permutation l l' -> form K l = form K l'.
Proof.
  intros P. unfold form. rewrite (sumR_perm _ _ _ P). apply sumR_ext. intros p _. now apply sumR_perm.
Qed.
Lemma form_head K c x l : form K ((c, x) :: l) = c * c * K x x + c * sumR (fun p => fst p * (K x (snd p) + K (snd p) x)) l + form K l.
Proof.
  unfold form. rewrite !sumR_cons. cbn [fst snd].
  replace (sumR (fun p => sumR (fun q => fst p * fst q * K (snd p) (snd q)) ((c, x) :: l)) l)
    with (sumR (fun p => c * (fst p * K (snd p) x)) l + sumR (fun p => sumR (fun q => fst p * fst q * K (snd p) (snd q)) l) l).
  2: { rewrite <- sumR_add. apply sumR_ext. intros p _. rewrite sumR_cons. cbn [fst snd]. ring. }
  rewrite <- sumR_scal. rewrite (sumR_ext (fun q => c * fst q * K x (snd q)) (fun q => c * (fst q * K x (snd q)))) by (intros; ring).
  rewrite <- sumR_scal. rewrite (sumR_ext (fun p => fst p * (K x (snd p) + K (snd p) x)) (fun p => fst p * K x (snd p) + fst p * K (snd p) x)) by (intros; ring).
  rewrite sumR_add. ring.
Qed.
(** A node [v] of the form is the limit of difference quotients of the nodes [u n] and [w]. *)
Lemma form_quotient K c v (u : nat -> X) w (h : nat -> R) l :
  (forall p, In p l -> is_lim_seq (fun n => (K (u n) (snd p) - K w (snd p)) / h n) (K v (snd p))) ->
  (forall p, In p l -> is_lim_seq (fun n => (K (snd p) (u n) - K (snd p) w) / h n) (K (snd p) v)) ->
  is_lim_seq (fun n => (K (u n) (u n) - K (u n) w - K w (u n) + K w w) / (h n * h n)) (K v v) ->
  (forall n, h n <> 0) ->
  is_lim_seq (fun n => form K ((c / h n, u n) :: (- c / h n, w) :: l)) (form K ((c, v) :: l)).
Proof.
  intros L1 L2 L3 Hh.
  apply (is_lim_seq_ext (fun n => c * c * ((K (u n) (u n) - K (u n) w - K w (u n) + K w w) / (h n * h n))
    + c * sumR (fun p => fst p * ((K (u n) (snd p) - K w (snd p)) / h n + (K (snd p) (u n) - K (snd p) w) / h n)) l + form K l)).
  { intros n. rewrite !form_head, sumR_cons. cbn [fst snd].
    rewrite (sumR_ext (fun p => fst p * ((K (u n) (snd p) - K w (snd p)) / h n + (K (snd p) (u n) - K (snd p) w) / h n))
      (fun p => / h n * (fst p * (K (u n) (snd p) + K (snd p) (u n))) + - / h n * (fst p * (K w (snd p) + K (snd p) w)))) by (intros; unfold Rdiv; ring).
    rewrite sumR_add, <- !sumR_scal. specialize (Hh n). field. exact Hh. }
  rewrite form_head. apply is_lim_seq_plus'; [apply is_lim_seq_plus'|apply is_lim_seq_const].
  - apply (is_lim_seq_scal_l _ (c * c) (K v v)). exact L3.
  - apply (is_lim_seq_scal_l _ c (sumR (fun p => fst p * (K v (snd p) + K (snd p) v)) l)).
    apply (sumR_lim (fun n p => fst p * ((K (u n) (snd p) - K w (snd p)) / h n + (K (snd p) (u n) - K (snd p) w) / h n))).
    intros p Hp. apply (is_lim_seq_scal_l _ (fst p) (K v (snd p) + K (snd p) v)). apply is_lim_seq_plus'; auto.
Qed.
End Form.

(** Difference quotients. *)
Lemma quotient_lim (f : R -> R) (x l : R) : is_derive f x l -> is_lim_seq (fun n => (f (x + / NN n) - f x) / / NN n) l.
Proof.
  intros D. apply is_derive_Reals in D. apply is_lim_seq_spec. intros eps. destruct (D eps (cond_pos eps)) as (delta & Hd).
  destruct (proj2 (is_lim_seq_spec _ _) NNi_lim delta) as (N & HN). exists N. intros n Hn. specialize (HN n Hn).
  rewrite Rminus_0_r in HN. apply Hd; [|exact HN]. pose proof (bounds n). lra.
Qed.
Lemma mixed_lim (f f1 f12 : R -> R -> R) : (forall s t, is_derive (fun s => f s t) s (f1 s t)) -> (forall s t, is_derive (fun t => f1 s t) t (f12 s t)) ->
  continuity_2d_pt f12 0 0 ->
  is_lim_seq (fun n => (f (/ NN n) (/ NN n) - f (/ NN n) 0 - f 0 (/ NN n) + f 0 0) / (/ NN n * / NN n)) (f12 0 0).
Proof.
  intros D1 D2 C. apply is_lim_seq_spec. intros eps. destruct (C eps) as (delta & Hd).
  destruct (proj2 (is_lim_seq_spec _ _) NNi_lim delta) as (N & HN). exists N. intros n Hn. specialize (HN n Hn).
  rewrite Rminus_0_r in HN. pose proof (bounds n) as B. set (h := / NN n) in *. rewrite Rabs_right in HN by lra.
  destruct (MVT_gen (fun s => f s h - f s 0) 0 h (fun s => f1 s h - f1 s 0)) as (xi & Hxi & E).
  - intros s _. apply @is_derive_minus; apply D1.
  - intros s _. apply continuity_pt_filterlim. apply (ex_derive_continuous (fun s => f s h - f s 0)). eexists. apply @is_derive_minus; apply D1.
  - destruct (MVT_gen (fun t => f1 xi t) 0 h (fun t => f12 xi t)) as (eta & Heta & E').
    + intros t _. apply D2.
    + intros t _. apply continuity_pt_filterlim. apply (ex_derive_continuous (fun t => f1 xi t)). eexists. apply D2.
    + rewrite Rmin_left, Rmax_right in Hxi, Heta by lra. rewrite E' in E.
      replace (f h h - f h 0 - f 0 h + f 0 0) with ((f h h - f h 0) - (f 0 h - f 0 0)) by ring. rewrite E.
      replace (f12 xi eta * (h - 0) * (h - 0) / (h * h)) with (f12 xi eta) by (field; lra).
      apply Hd; rewrite Rminus_0_r, Rabs_right; lra.
Qed.

(** The kernels of the class along two lines. *)
Lemma cont2_total {A} (g : A -> R -> R -> R) l s t : (forall a, In a l -> continuity_2d_pt (g a) s t) -> continuity_2d_pt (fun s t => total (map (fun a => g a s t) l)) s t.
Proof.
  induction l as [|a l IH]; intros H; [apply (continuity_2d_pt_ext (fun _ _ => 0)); [reflexivity|apply continuity_2d_pt_const]|].
  apply (continuity_2d_pt_ext (fun s t => g a s t + total (map (fun a => g a s t) l))); [reflexivity|].
  apply continuity_2d_pt_plus; [apply H; now left|apply IH; intros; apply H; now right].
Qed.
Lemma cont2_line (x v : array) i s t : continuity_2d_pt (fun s _ => line x s v i) s t /\ continuity_2d_pt (fun _ t => line x t v i) s t.
Proof.
  split; unfold line; (apply continuity_2d_pt_plus; [apply continuity_2d_pt_const|]; apply continuity_2d_pt_mult; [|apply continuity_2d_pt_const]).
  - apply continuity_2d_pt_id1.
  - apply continuity_2d_pt_id2.
Qed.
Lemma cont2_pev q (x y v w : array) s t : continuity_2d_pt (fun s t => pev q (line x s v) (line y t w)) s t.
Proof.
  induction q as [c|a i|p IHp q IHq|p IHp q IHq]; cbn [pev].
  - apply continuity_2d_pt_const.
  - destruct a; apply cont2_line.
  - now apply continuity_2d_pt_plus.
  - now apply continuity_2d_pt_mult.
Qed.
Lemma cont2_class sh k (x y v w : array) s t : kclass sh k -> continuity_2d_pt (fun s t => k (line x s v) (line y t w)) s t.
Proof.
  intros (ts & _ & ->). unfold tsev. apply (cont2_total (fun a s t => tev sh a (line x s v) (line y t w))). intros a _. unfold tev, expo.
  apply continuity_2d_pt_mult; [apply cont2_pev|].
  apply (continuity_1d_2d_pt_comp exp (fun s t => - / 2 * total (map (fun i => t_prec a i * (line x s v i - line y t w i) ^ 2) (all_indices sh)))).
  - apply derivable_continuous_pt, derivable_pt_exp.
  - apply continuity_2d_pt_mult; [apply continuity_2d_pt_const|]. apply (cont2_total (fun i s t => t_prec a i * (line x s v i - line y t w i) ^ 2)).
    intros i _. apply continuity_2d_pt_mult; [apply continuity_2d_pt_const|]. cbn [pow]. destruct (cont2_line x v i s t) as [C1 _]. destruct (cont2_line y w i s t) as [_ C2].
    pose proof (continuity_2d_pt_minus _ _ _ _ C1 C2) as C. apply continuity_2d_pt_mult; [exact C|]. apply continuity_2d_pt_mult; [exact C|apply continuity_2d_pt_const].
Qed.
Lemma line_line x s t v : line (line x s v) t v = line x (s + t) v.
Proof. extensionality j. unfold line. ring. Qed.
Lemma pd_sum sh i (f : array -> R) x : valid_index sh i -> total (map (fun j => unitv i j * pd j f x) (all_indices sh)) = pd i f x.
Proof. intros V. unfold unitv. apply total_single; [apply all_nodup|now apply all_indices_spec]. Qed.
Lemma derive_shift (f : R -> R) s l : is_derive (fun t => f (s + t)) 0 l -> is_derive f s l.
Proof.
  intros D. apply (is_derive_ext (fun u => (fun t => f (s + t)) (u - s))); [intros u; f_equal; ring|].
  evar_last; [apply (is_derive_comp (fun t => f (s + t)) (fun u => u - s))|].
  - replace (s - s) with 0 by ring. exact D.
  - auto_derive; [trivial|reflexivity].
  - unfold scal. cbn. unfold mult. cbn. ring.
Qed.
Lemma class_line sh k i x y s t : kclass sh k -> valid_index sh i ->
  is_derive (fun s => k (line x s (unitv i)) (line y t (unitv i))) s (in_arg 0 (pd i) k (line x s (unitv i)) (line y t (unitv i))) /\
  is_derive (fun t => k (line x s (unitv i)) (line y t (unitv i))) t (in_arg 1 (pd i) k (line x s (unitv i)) (line y t (unitv i))).
Proof.
  intros K V. destruct (class_diff1 sh k K) as [D0 D1]. split; apply derive_shift.
  - specialize (D0 (line y t (unitv i)) (unitv i) (line x s (unitv i))). cbn beta in D0. rewrite pd_sum in D0 by exact V.
    apply (is_derive_ext (fun u => k (line (line x s (unitv i)) u (unitv i)) (line y t (unitv i)))); [intros u; now rewrite line_line|exact D0].
  - specialize (D1 (line x s (unitv i)) (unitv i) (line y t (unitv i))). cbn beta in D1. rewrite pd_sum in D1 by exact V.
    apply (is_derive_ext (fun u => k (line x s (unitv i)) (line (line y t (unitv i)) u (unitv i)))); [intros u; now rewrite line_line|exact D1].
Qed.
Lemma class_iterD sh k a w : kclass sh k -> List.Forall (valid_index sh) w -> kclass sh (in_arg a (iterD w) k).
Proof.
  revert k. induction w as [|i w IH]; intros k K W.
  - replace (in_arg a (iterD [])) with (fun k : kernel => k) by (extensionality k'; now destruct a). exact K.
  - inversion_clear W as [|? ? V W']. replace (in_arg a (iterD (i :: w)) k) with (in_arg a (iterD w) (in_arg a (pd i) k)) by now destruct a.
    apply IH; [now apply class_pd|exact W'].
Qed.
Lemma iterD_comm sh k i w : kclass sh k -> valid_index sh i -> List.Forall (valid_index sh) w ->
  in_arg 1 (iterD w) (in_arg 0 (pd i) k) = in_arg 0 (pd i) (in_arg 1 (iterD w) k).
Proof.
  revert k. induction w as [|j w IH]; intros k K V W; [reflexivity|]. inversion_clear W as [|? ? V' W'].
  change (in_arg 1 (iterD (j :: w)) (in_arg 0 (pd i) k)) with (in_arg 1 (iterD w) (in_arg 1 (pd j) (in_arg 0 (pd i) k))).
  change (in_arg 1 (iterD (j :: w)) k) with (in_arg 1 (iterD w) (in_arg 1 (pd j) k)).
  rewrite <- (class_comm sh) by assumption. apply IH; [now apply class_pd|exact V|exact W'].
Qed.

Lemma in_snoc a w i (k : kernel) : in_arg a (iterD (w ++ [i])) k = in_arg a (pd i) (in_arg a (iterD w) k).
Proof. extensionality x0. extensionality x1. unfold in_arg. destruct a; now rewrite iterD_snoc. Qed.

Section Words.
Variables (sh : shape) (k : kernel).
Hypothesis Kk : kclass sh k.
Hypothesis Pk : psd_kernel (k : array -> array -> RF).
(** The covariance of the derivative along the word [fst p] at the point [snd p] and the one
    given by [q]. *)
Definition jk (p q : list index * array) : R := in_arg 1 (iterD (fst q)) (in_arg 0 (iterD (fst p)) k) (snd p) (snd q).
Definition jk2 (w w' : list index) : kernel := in_arg 1 (iterD w') (in_arg 0 (iterD w) k).
Definition okn (p : R * (list index * array)) : Prop := List.Forall (valid_index sh) (fst (snd p)).
Lemma jk2_class w w' : List.Forall (valid_index sh) w -> List.Forall (valid_index sh) w' -> kclass sh (jk2 w w').
Proof. intros W W'. apply class_iterD; [now apply class_iterD|exact W']. Qed.
Lemma jk_snoc0 w i x q : List.Forall (valid_index sh) w -> valid_index sh i -> List.Forall (valid_index sh) (fst q) ->
  jk (w ++ [i], x) q = in_arg 0 (pd i) (jk2 w (fst q)) x (snd q).
Proof.
  intros W V Q. unfold jk, jk2. cbn [fst snd]. rewrite <- (iterD_comm sh) by (auto; now apply class_iterD).
  now rewrite in_snoc.
Qed.
Lemma jk_snoc1 w i x q : jk q (w ++ [i], x) = in_arg 1 (pd i) (jk2 (fst q) w) (snd q) x.
Proof. unfold jk, jk2. cbn [fst snd]. now rewrite in_snoc. Qed.
Definition weight (l : list (R * (list index * array))) : nat := list_sum (map (fun p => 3 ^ length (fst (snd p)))%nat l).
Lemma list_sum_perm l l' : Permutation l l' -> list_sum l = list_sum l'.
Proof. unfold list_sum. induction 1; cbn [fold_right]; lia. Qed.
Lemma words_done l : (forall p, In p l -> fst (snd p) = []) -> 0 <= form jk l.
Proof.
  intros H. assert (E : form jk l = form k (map (fun p => (fst p, snd (snd p))) l)); [|rewrite E; apply Pk].
  unfold form. rewrite sumR_map. apply sumR_ext. intros p Hp. rewrite sumR_map. apply sumR_ext. intros q Hq. cbn [fst snd].
  f_equal. unfold jk. now rewrite (H p Hp), (H q Hq).
Qed.
Lemma words_split (l : list (R * (list index * array))) : (forall p, In p l -> fst (snd p) = []) \/ exists c w i x l', Permutation l ((c, (w ++ [i], x)) :: l').
Proof.
  induction l as [|[c [w x]] l [IH|(c' & w' & i & x' & l' & IH)]].
  - left. intros p [].
  - destruct w as [|i w] using rev_ind.
    + left. intros p [<-|H]; [reflexivity|now apply IH].
    + right. exists c, w, i, x, l. reflexivity.
  - right. exists c', w', i, x', ((c, (w, x)) :: l'). rewrite IH. apply perm_swap.
Qed.
Lemma words_psd n : forall l, (weight l <= n)%nat -> List.Forall okn l -> 0 <= form jk l.
Proof.
  induction n as [n IH] using (well_founded_induction lt_wf). intros l Hn O.
  destruct (words_split l) as [H|(c & w & i & x & l' & P)]; [now apply words_done|].
  rewrite (form_perm _ _ _ P). unfold weight in Hn. rewrite (list_sum_perm _ _ (Permutation_map _ P)) in Hn. cbn [map list_sum fold_right fst snd] in Hn.
  rewrite app_length, Nat.pow_add_r in Hn. cbn [length Nat.pow] in Hn.
  assert (P3 : (3 ^ length w <> 0)%nat) by (apply Nat.pow_nonzero; discriminate).
  pose proof (Permutation_Forall P O) as O'. inversion_clear O' as [|? ? On Ol]. unfold okn in On. cbn [fst snd] in On.
  apply List.Forall_app in On as [W Vi]. inversion_clear Vi as [|? ? V _].
  rewrite List.Forall_forall in Ol.
  apply (lim_nonneg (fun n => form jk ((c / / NN n, (w, line x (/ NN n) (unitv i))) :: (- c / / NN n, (w, x)) :: l'))).
  - intros m. apply (IH (weight ((c / / NN m, (w, line x (/ NN m) (unitv i))) :: (- c / / NN m, (w, x)) :: l'))); [|lia|].
    + unfold weight. cbn [map list_sum fold_right fst snd]. unfold list_sum in Hn. lia.
    + constructor; [exact W|constructor; [exact W|]]. now apply List.Forall_forall.
  - apply (form_quotient jk c (w ++ [i], x) (fun n => (w, line x (/ NN n) (unitv i))) (w, x) (fun n => / NN n)).
    + intros [d [q y]] Hp. specialize (Ol _ Hp). unfold okn in Ol. cbn [fst snd] in Ol |- *.
      rewrite jk_snoc0 by assumption. cbn [fst snd].
      destruct (class_line sh (jk2 w q) i x y 0 0 (jk2_class w q W Ol) V) as [D _]. rewrite !line0 in D.
      apply quotient_lim in D. apply (is_lim_seq_ext _ _ _) with (2 := D). intros m. rewrite Rplus_0_l, line0. reflexivity.
    + intros [d [q y]] Hp. specialize (Ol _ Hp). unfold okn in Ol. cbn [fst snd] in Ol |- *.
      rewrite jk_snoc1. cbn [fst snd].
      destruct (class_line sh (jk2 q w) i y x 0 0 (jk2_class q w Ol W) V) as [_ D]. rewrite !line0 in D.
      apply quotient_lim in D. apply (is_lim_seq_ext _ _ _) with (2 := D). intros m. rewrite Rplus_0_l, line0. reflexivity.
    + pose proof (jk2_class w w W W) as K2. pose proof (class_pd sh (jk2 w w) 0 i K2 V) as K1. pose proof (class_pd sh _ 1 i K1 V) as K12.
      set (f := fun s t => jk2 w w (line x s (unitv i)) (line x t (unitv i))).
      assert (L := mixed_lim f (fun s t => in_arg 0 (pd i) (jk2 w w) (line x s (unitv i)) (line x t (unitv i)))
        (fun s t => in_arg 1 (pd i) (in_arg 0 (pd i) (jk2 w w)) (line x s (unitv i)) (line x t (unitv i)))
        (fun s t => proj1 (class_line sh _ i x x s t K2 V)) (fun s t => proj2 (class_line sh _ i x x s t K1 V))
        (cont2_class sh _ x x (unitv i) (unitv i) 0 0 K12)).
      cbn beta in L. rewrite !line0 in L.
      replace (jk (w ++ [i], x) (w ++ [i], x)) with (in_arg 1 (pd i) (in_arg 0 (pd i) (jk2 w w)) x x).
      * apply (is_lim_seq_ext _ _ _) with (2 := L). intros m. unfold f, jk2, jk. cbn [fst snd]. rewrite !line0. reflexivity.
      * unfold jk. cbn [fst snd]. rewrite !in_snoc. rewrite (iterD_comm sh) by (auto; now apply class_iterD). reflexivity.
    + intros n0. pose proof (bounds n0). lra.
Qed.
End Words.

(** Operator expressions as linear combinations of iterated partial derivatives. *)
Definition word_of (a : mi) : list index := flat_map (fun i => repeat i (mi_entry a i)) (all_indices (mi_shape a)).
Definition dexpand (d : dop) : list (R * list index) :=
  match d with
  | DPartial a | DPartialNoJax a => [(1, word_of a)]
  | DLap _ sh w => map (fun i => (w i, [i; i])) (all_indices sh)
  | DDir sh v => map (fun i => (v i, [i])) (all_indices sh)
  end.
Fixpoint expand (L : lfo) : list (R * list index) :=
  match L with
  | OId _ _ => [(1, [])]
  | ODiff d => dexpand d
  | OScaled s M => map (fun p => (s * fst p, snd p)) (expand M)
  | OSum Ls => flat_map expand Ls
  | OComp Ls => fold_right (fun M acc => flat_map (fun p => map (fun q => (fst p * fst q, snd p ++ snd q)) (expand M)) acc) [(1, [])] Ls
  end.
Lemma sumR_flat {A B} (f : B -> R) (g : A -> list B) l : sumR f (flat_map g l) = sumR (fun a => sumR f (g a)) l.
Proof. induction l as [|a l IH]; [reflexivity|]. cbn [flat_map]. now rewrite sumR_app, sumR_cons, IH. Qed.
Definition validw (sh : shape) (l : list (R * list index)) : Prop := forall p, In p l -> List.Forall (valid_index sh) (snd p).
Lemma dexpand_valid d : validw (d_dom d) (dexpand d).
Proof.
  assert (G : forall a, List.Forall (valid_index (mi_shape a)) (word_of a)).
  { intros a. apply List.Forall_forall. intros i Hi. apply in_flat_map in Hi as (j & Hj & Hi). apply repeat_spec in Hi. subst j. now apply all_indices_spec. }
  destruct d as [a|a|b s w|s v]; cbn [dexpand d_dom]; intros p Hp.
  - destruct Hp as [<-|[]]. apply G.
  - destruct Hp as [<-|[]]. apply G.
  - apply in_map_iff in Hp as (i & <- & Hi). apply all_indices_spec in Hi. now repeat constructor.
  - apply in_map_iff in Hp as (i & <- & Hi). apply all_indices_spec in Hi. now repeat constructor.
Qed.
Lemma expand_valid sh L : opdom sh L -> validw sh (expand L).
Proof.
  induction L as [dom cod|d|s L IH|Ls IH|Ls IH] using lfo_induction; cbn [opdom expand]; intros O.
  - intros p [<-|[]]. constructor.
  - subst sh. apply dexpand_valid.
  - intros p Hp. apply in_map_iff in Hp as (q & <- & Hq). exact (IH O q Hq).
  - intros p Hp. apply in_flat_map in Hp as (M & HM & Hp). apply (IH M HM); [|exact Hp]. now apply (opdom_in sh Ls).
  - induction Ls as [|M Ls IHL]; cbn [fold_right].
    + intros p [<-|[]]. constructor.
    + destruct O as [O1 O2]. intros p Hp. apply in_flat_map in Hp as (q & Hq & Hp). apply in_map_iff in Hp as (r & <- & Hr). cbn [snd].
      apply List.Forall_app. split; [|now apply (IH M (or_introl eq_refl) O1)]. apply IHL; [|exact O2|exact Hq]. intros M' HM'. apply IH. now right.
Qed.
Lemma smooth_iterD sh w f : smooth sh f -> List.Forall (valid_index sh) w -> smooth sh (iterD w f).
Proof.
  revert f. induction w as [|i w IH]; intros f Sf W; [exact Sf|]. inversion_clear W. cbn. apply IH; [now apply smooth_pd|assumption].
Qed.
Lemma smooth_sumR {A} sh (h : A -> array -> R) l : (forall a, In a l -> smooth sh (h a)) -> smooth sh (fun x => sumR (fun a => h a x) l).
Proof.
  intros H. replace (fun x => sumR (fun a => h a x) l) with (fun x => total (map (fun a => h a x) l)) by (extensionality x; now rewrite sumR_total).
  now apply smooth_total.
Qed.
Lemma pd_sumR {A} sh i (h : A -> array -> R) l x : (forall a, In a l -> smooth sh (h a)) ->
  pd i (fun x => sumR (fun a => h a x) l) x = sumR (fun a => pd i (h a) x) l.
Proof.
  induction l as [|a l IH]; intros H; [exact (pd_const i 0 x)|]. rewrite sumR_cons, <- IH by (intros; apply H; now right).
  apply (pd_plus sh i (h a) (fun x => sumR (fun a => h a x) l)); [apply H; now left|]. apply smooth_sumR. intros; apply H; now right.
Qed.
Lemma iterD_sumR {A} sh w (c : A -> R) (h : A -> array -> R) l : (forall a, In a l -> smooth sh (h a)) -> List.Forall (valid_index sh) w ->
  iterD w (fun x => sumR (fun a => c a * h a x) l) = fun x => sumR (fun a => c a * iterD w (h a) x) l.
Proof.
  revert h. induction w as [|i w IH]; intros h H W; [reflexivity|]. inversion_clear W as [|? ? V W'].
  change (iterD w (pd i (fun x => sumR (fun a => c a * h a x) l)) = fun x => sumR (fun a => c a * iterD w (pd i (h a)) x) l).
  rewrite <- (IH (fun a => pd i (h a))); [|intros; now apply smooth_pd; auto|exact W']. f_equal. extensionality x.
  rewrite (pd_sumR sh i (fun a x => c a * h a x)) by (intros; apply smooth_scal; auto). apply sumR_ext. intros a Ha. now apply (pd_scal sh); auto.
Qed.
Lemma iterD_repeat i n f : iterD (repeat i n) f = Nat.iter n (pd i) f.
Proof. unfold iterD. now rewrite fold_repeat. Qed.
Lemma dexpand_sound d f x : dsem d f x = sumR (fun p => fst p * iterD (snd p) f x) (dexpand d).
Proof.
  assert (G : forall a, pderiv a f x = sumR (fun p => fst p * iterD (snd p) f x) [(1, word_of a)]).
  { intros a. unfold sumR. cbn [map fst snd fsum fold_right]. unfold pderiv, word_of, iterD. rewrite fold_left_flat_map.
    rewrite (fold_left_ext_in (fun h i => fold_left (fun h i => pd i h) (repeat i (mi_entry a i)) h) (fun h i => Nat.iter (mi_entry a i) (pd i) h)).
    - cbn. ring.
    - intros c i _. now rewrite fold_repeat. }
  destruct d as [a|a|b s w|s v]; cbn [dsem dexpand]; [apply G|apply G| |]; rewrite sumR_map, sumR_total; reflexivity.
Qed.
Lemma expand_sound sh L : opdom sh L -> forall f, smooth sh f -> ksem L f = fun x => sumR (fun p => fst p * iterD (snd p) f x) (expand L).
Proof.
  induction L as [dom cod|d|s L IH|Ls IH|Ls IH] using lfo_induction; cbn [opdom]; intros O f Sf; extensionality x.
  - unfold sumR. cbn. ring.
  - apply dexpand_sound.
  - cbn [ksem expand]. rewrite (IH O f Sf), sumR_map. cbn [fst snd]. rewrite sumR_scal. apply sumR_ext. intros p _. ring.
  - cbn [ksem expand]. rewrite sumR_flat, sumR_total. f_equal. apply map_ext_in. intros M HM. now rewrite (IH M HM (opdom_in sh Ls O M HM) f Sf).
  - revert x. induction Ls as [|M Ls IHL]; intros x; cbn [ksem expand fold_right]; [unfold sumR; cbn; ring|].
    destruct O as [O1 O2]. assert (IH' : forall M, In M Ls -> opdom sh M -> forall f, smooth sh f -> ksem M f = fun x => sumR (fun p => fst p * iterD (snd p) f x) (expand M))
      by (intros M' HM'; apply IH; now right).
    specialize (IHL IH' O2). change (fold_right (fun M h => ksem M h) f Ls) with (ksem (OComp Ls) f).
    change (fold_right (fun M acc => flat_map (fun p => map (fun q => (fst p * fst q, snd p ++ snd q)) (expand M)) acc) [(1, [])] Ls) with (expand (OComp Ls)).
    assert (E : ksem (OComp Ls) f = fun x => sumR (fun p => fst p * iterD (snd p) f x) (expand (OComp Ls))) by (extensionality y; apply IHL).
    assert (Vs : validw sh (expand (OComp Ls))) by now apply expand_valid.
    assert (VM : validw sh (expand M)) by now apply expand_valid.
    assert (Sm : forall p, In p (expand (OComp Ls)) -> smooth sh (iterD (snd p) f)) by (intros p Hp; apply smooth_iterD; auto).
    rewrite E. rewrite (IH M (or_introl eq_refl) O1).
    2: { apply (smooth_sumR sh (fun p x => fst p * iterD (snd p) f x)). intros p Hp. apply smooth_scal; auto. }
    rewrite sumR_flat.
    rewrite (sumR_ext (fun p => fst p * iterD (snd p) (fun x0 => sumR (fun p0 => fst p0 * iterD (snd p0) f x0) (expand (OComp Ls))) x)
      (fun q => sumR (fun p => fst p * fst q * iterD (snd p ++ snd q) f x) (expand (OComp Ls)))).
    + rewrite sumR_swap. apply sumR_ext. intros p _. rewrite sumR_map. reflexivity.
    + intros q Hq. rewrite (iterD_sumR sh (snd q) (fun p => fst p) (fun p => iterD (snd p) f)) by auto. rewrite sumR_scal. apply sumR_ext. intros p _.
      rewrite iterD_app. ring.
Qed.

Section Ops.
Variables (sh : shape) (k : kernel).
Hypothesis Kk : kclass sh k.
Hypothesis Pk : psd_kernel (k : array -> array -> RF).
Definition opk (p q : lfo * array) : R := in_arg 1 (ksem (fst q)) (in_arg 0 (ksem (fst p)) k) (snd p) (snd q).
Lemma opk_words L M x y : opdom sh L -> opdom sh M ->
  opk (L, x) (M, y) = sumR (fun p => sumR (fun q => fst p * fst q * jk k (snd p, x) (snd q, y)) (expand M)) (expand L).
Proof.
  intros OL OM. unfold opk. cbn [fst snd].
  assert (VL := expand_valid sh L OL). assert (VM := expand_valid sh M OM).
  assert (E : in_arg 0 (ksem L) k = fun x0 x1 => sumR (fun p => fst p * in_arg 0 (iterD (snd p)) k x0 x1) (expand L)).
  { extensionality x0. extensionality x1. unfold in_arg at 1. rewrite (expand_sound sh L OL _ (proj1 (class_smooth sh k Kk) x1)). reflexivity. }
  rewrite E. unfold in_arg at 1. rewrite (expand_sound sh M OM).
  2: { apply (smooth_sumR sh (fun p z => fst p * in_arg 0 (iterD (snd p)) k x z)). intros p Hp. apply smooth_scal. exact (proj2 (class_smooth sh _ (class_iterD sh k 0 (snd p) Kk (VL p Hp))) x). }
  rewrite sumR_swap. apply sumR_ext. intros q Hq.
  rewrite (iterD_sumR sh (snd q) (fun p => fst p) (fun p z => in_arg 0 (iterD (snd p)) k x z)); [|intros p Hp; exact (proj2 (class_smooth sh _ (class_iterD sh k 0 (snd p) Kk (VL p Hp))) x)|auto].
  rewrite sumR_scal. apply sumR_ext. intros p _. unfold jk. cbn [fst snd]. unfold in_arg at 2. ring.
Qed.
Lemma ops_psd l : (forall p, In p l -> opdom sh (fst (snd p))) -> 0 <= form opk l.
Proof.
  intros O. set (l' := flat_map (fun p => map (fun q => (fst p * fst q, (snd q, snd (snd p)))) (expand (fst (snd p)))) l).
  assert (E : form opk l = form (jk k) l').
  { unfold form, l'. rewrite sumR_flat. apply sumR_ext. intros [c [L x]] Hp. rewrite sumR_map. cbn [fst snd].
    rewrite (sumR_ext (fun q => sumR (fun r => c * fst q * fst r * jk k (snd q, x) (snd r)) (flat_map (fun p => map (fun q0 => (fst p * fst q0, (snd q0, snd (snd p)))) (expand (fst (snd p)))) l))
      (fun q => sumR (fun r => sumR (fun s => c * fst r * (fst q * fst s * jk k (snd q, x) (snd s, snd (snd r)))) (expand (fst (snd r)))) l)).
    - rewrite sumR_swap. apply sumR_ext. intros [d [M y]] Hq. cbn [fst snd].
      rewrite (opk_words L M x y (O _ Hp) (O _ Hq)). rewrite sumR_scal. apply sumR_ext. intros q _. rewrite sumR_scal. reflexivity.
    - intros q _. rewrite sumR_flat. apply sumR_ext. intros r _. rewrite sumR_map. apply sumR_ext. intros s _. cbn [fst snd]. ring. }
  rewrite E. apply (words_psd sh k Kk Pk (weight l') l' (le_n _)). apply List.Forall_forall. intros p Hp.
  apply in_flat_map in Hp as ([c [L x]] & Hl & Hp). cbn [fst snd] in Hp. apply in_map_iff in Hp as (q & <- & Hq). unfold okn. cbn [fst snd].
  now apply (expand_valid sh L (O _ Hl)).
Qed.
End Ops.
