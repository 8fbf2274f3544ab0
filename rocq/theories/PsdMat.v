(** Joint positive semidefiniteness of derivatives of the Matérn kernels. *)
From Coq Require Import List Reals Lra Lia Bool Arith FunctionalExtensionality Permutation.
From Coquelicot Require Import Coquelicot.
From Verif Require Import Base NdArray PolyModel PolySpec PolyProofs PolyClassModel PolyCalc PolyProps FunExprModel DiffopModel DiffopSpec DiffopProofs
  LfoModel LfoSpec LfoSmooth LfoProofs KernelModel KernelSpec KernelCalc KernelSmooth KernelSound KernelProps
  MaternPoly MaternProps MaternProofs MaternUni MaternKernelProps ParamSpec ParamProofs TensorSpec TensorSchur PsdBase PsdMatern PsdDiff.
Import ListNotations.
Open Scope R_scope.

Section Closure.
Context {N : Type}.
Variables (K : N -> N -> R) (ok : N -> Prop) (ord : N -> nat).
Definition nearby (v : N) (k : nat) : Prop := exists (u : nat -> N) (w : N),
  (forall n, ok (u n) /\ ord (u n) = k) /\ ok w /\ ord w = k /\
  (forall q, ok q -> is_lim_seq (fun n => (K (u n) q - K w q) / / NN n) (K v q)) /\
  (forall q, ok q -> is_lim_seq (fun n => (K q (u n) - K q w) / / NN n) (K q v)) /\
  is_lim_seq (fun n => (K (u n) (u n) - K (u n) w - K w (u n) + K w w) / (/ NN n * / NN n)) (K v v).
Hypothesis H0 : forall l, (forall p, In p l -> ok (snd p) /\ ord (snd p) = 0%nat) -> 0 <= form K l.
Hypothesis HS : forall v k, ok v -> ord v = S k -> nearby v k.
Definition oweight (l : list (R * N)) : nat := list_sum (map (fun p => 3 ^ ord (snd p))%nat l).
Lemma osplit (l : list (R * N)) : (forall p, In p l -> ord (snd p) = 0%nat) \/ exists c v k l', ord v = S k /\ Permutation l ((c, v) :: l').
Proof.
  induction l as [|[c v] l [IH|(c' & v' & k & l' & E & IH)]].
  - left. intros p [].
  - destruct (ord v) as [|k] eqn:E.
    + left. intros p [<-|H]; [exact E|now apply IH].
    + right. exists c, v, k, l. split; [exact E|reflexivity].
  - right. exists c', v', k, ((c, v) :: l'). split; [exact E|]. rewrite IH. apply perm_swap.
Qed.
Lemma closure_psd n : forall l, (oweight l <= n)%nat -> (forall p, In p l -> ok (snd p)) -> 0 <= form K l.
Proof.
  induction n as [n IH] using (well_founded_induction lt_wf). intros l Hn O.
  destruct (osplit l) as [H|(c & v & k & l' & E & P)]; [apply H0; auto|].
  rewrite (form_perm _ _ _ P). unfold oweight in Hn. rewrite (list_sum_perm _ _ (Permutation_map _ P)) in Hn. cbn [map list_sum fold_right fst snd] in Hn.
  rewrite E in Hn. cbn [Nat.pow] in Hn. assert (P3 : (3 ^ k <> 0)%nat) by (apply Nat.pow_nonzero; discriminate).
  assert (Ov : ok v) by (apply (O (c, v)); apply (Permutation_in _ (Permutation_sym P)); now left).
  assert (Ol : forall p, In p l' -> ok (snd p)) by (intros p Hp; apply O; apply (Permutation_in _ (Permutation_sym P)); now right).
  destruct (HS v k Ov E) as (u & w & Hu & Hw & Ew & L1 & L2 & L3).
  apply (lim_nonneg (fun n => form K ((c / / NN n, u n) :: (- c / / NN n, w) :: l'))).
  - intros m. destruct (Hu m) as [Hm Em]. apply (IH (oweight ((c / / NN m, u m) :: (- c / / NN m, w) :: l'))); [|lia|].
    + unfold oweight. cbn [map list_sum fold_right fst snd]. rewrite Em, Ew. unfold list_sum in Hn. lia.
    + intros p [<-|[<-|Hp]]; auto.
  - apply (form_quotient K c v u w (fun n => / NN n)); auto. intros m. pose proof (bounds m). lra.
Qed.
End Closure.

(** * One variable: the derivatives up to order [T] of a stationary kernel with [2 T] continuous derivatives *)
Section Line.
Variables (g : nat -> R -> R) (T : nat).
Hypothesis Hd : forall n u, (n < 2 * T)%nat -> is_derive (g n) u (g (S n) u).
Hypothesis Hc : forall n u, (n <= 2 * T)%nat -> continuous (g n) u.
Hypothesis Hp : psd_kernel (fun x y : R => g 0 (x - y) : car RF).
Definition lk (p q : nat * R) : R := (-1) ^ fst q * g (fst p + fst q) (snd p - snd q).
Lemma derive_lin (f : R -> R) s a b l : is_derive f (a * s + b) l -> is_derive (fun s => f (a * s + b)) s (a * l).
Proof.
  intros D. evar_last; [apply (is_derive_comp f (fun s => a * s + b)); [exact D|]|].
  - auto_derive; [trivial|reflexivity].
  - unfold scal. cbn. unfold mult. cbn. ring.
Qed.
Lemma line_psd l : (forall p, In p l -> (fst (snd p) <= T)%nat) -> 0 <= form lk l.
Proof.
  apply (closure_psd lk (fun v => fst v <= T)%nat fst) with (n := oweight fst l); [| |apply le_n].
  - clear l. intros l H. assert (E : form lk l = form (fun x y => g 0 (x - y)) (map (fun p => (fst p, snd (snd p))) l)); [|rewrite E; apply Hp].
    unfold form. rewrite sumR_map. apply sumR_ext. intros p Ip. rewrite sumR_map. apply sumR_ext. intros q Iq. cbn [fst snd].
    f_equal. unfold lk. rewrite (proj2 (H p Ip)), (proj2 (H q Iq)). cbn [pow Nat.add]. ring.
  - clear l. intros [k' x] k O E. cbn [fst] in O, E. subst k'. exists (fun n => (k, x + / NN n)), (k, x). cbn [fst].
    split; [intros; split; [lia|reflexivity]|]. split; [lia|]. split; [reflexivity|]. split; [|split].
    + intros [j y] Hj. cbn [fst] in Hj. unfold lk. cbn [fst snd].
      assert (D : is_derive (fun s => (-1) ^ j * g (k + j) (1 * s + (- y))) x ((-1) ^ j * (1 * g (S k + j) (1 * x + (- y))))).
      { apply is_derive_scal. apply derive_lin. apply Hd. lia. }
      apply quotient_lim in D. replace ((-1) ^ j * g (S k + j) (x - y)) with ((-1) ^ j * (1 * g (S k + j) (1 * x + (- y)))).
      * apply (is_lim_seq_ext _ _ _) with (2 := D). intros n. do 4 f_equal; ring.
      * rewrite Rmult_1_l. do 2 f_equal. ring.
    + intros [j y] Hj. cbn [fst] in Hj. unfold lk. cbn [fst snd].
      assert (D : is_derive (fun s => (-1) ^ k * g (j + k) ((-1) * s + y)) x ((-1) ^ k * ((-1) * g (S (j + k)) ((-1) * x + y)))).
      { apply is_derive_scal. apply derive_lin. apply Hd. lia. }
      apply quotient_lim in D. replace ((-1) ^ S k * g (j + S k) (y - x)) with ((-1) ^ k * ((-1) * g (S (j + k)) ((-1) * x + y))).
      * apply (is_lim_seq_ext _ _ _) with (2 := D). intros n. do 4 f_equal; ring.
      * rewrite Nat.add_succ_r. replace (-1 * x + y) with (y - x) by ring. cbn [pow]. ring.
    + unfold lk. cbn [fst snd].
      assert (L := mixed_lim (fun s t => (-1) ^ k * g (k + k) (s - t)) (fun s t => (-1) ^ k * (1 * g (S (k + k)) (s - t)))
        (fun s t => (-1) ^ k * (1 * ((-1) * g (S (S (k + k))) (s - t))))).
      cbn beta in L. replace ((-1) ^ S k * g (S k + S k) (x - x)) with ((-1) ^ k * (1 * (-1 * g (S (S (k + k))) (0 - 0)))).
      * eapply is_lim_seq_ext; [|apply L; [intros s t|intros s t|]].
        -- intros n. cbn beta. rewrite !Rminus_0_r. replace (x + / NN n - (x + / NN n)) with (/ NN n - / NN n) by ring.
           replace (x + / NN n - x) with (/ NN n) by ring. replace (x - (x + / NN n)) with (0 - / NN n) by ring. replace (x - x) with 0 by ring. reflexivity.
        -- apply is_derive_scal. apply (is_derive_ext (fun s => g (k + k) (1 * s + (- t)))); [intros; f_equal; ring|].
           replace (s - t) with (1 * s + - t) by ring. apply derive_lin. apply Hd. lia.
        -- apply is_derive_scal. apply is_derive_scal. apply (is_derive_ext (fun t => g (S (k + k)) ((-1) * t + s))); [intros; f_equal; ring|].
           replace (s - t) with ((-1) * t + s) by ring. apply derive_lin. apply Hd. lia.
        -- apply continuity_2d_pt_mult; [apply continuity_2d_pt_const|]. apply continuity_2d_pt_mult; [apply continuity_2d_pt_const|].
           apply continuity_2d_pt_mult; [apply continuity_2d_pt_const|].
           apply (continuity_1d_2d_pt_comp (g (S (S (k + k)))) (fun s t => s - t)).
           ++ apply continuity_pt_filterlim. apply Hc. lia.
           ++ apply continuity_2d_pt_minus; [apply continuity_2d_pt_id1|apply continuity_2d_pt_id2].
      * rewrite Rminus_eq_0, Nat.add_succ_r. replace (x - x) with 0 by ring. cbn [pow Nat.add]. ring.
Qed.
End Line.

(** * Any number of variables: directional derivatives *)
Section Multi.
Variables (m : matern) (p : nat).
Notation sh := (mt_shape m).
Notation s := (mt_scale m).
Variables q1 npd pd2 : pypoly.
Hypothesis Hq : py_floordiv (matern_poly p 1) 1 = Ok q1.
Hypothesis Hn : py_floordiv (py_neg (matern_poly p 1)) 1 = Ok npd.
Hypothesis Hd : py_floordiv (py_add (matern_poly p 2) npd) 2 = Ok pd2.
Notation Q := (Qm m).
Notation S' := (Sd m).
Notation h1' := (h1 q1).
Notation h2' := (h2 pd2).
Lemma Q_line z t v : Q (line z t v) = Q z + 2 * t * S' v z + t ^ 2 * S' v v.
Proof.
  unfold Qm, Sd. rewrite <- !total_mult, <- !total_plus. apply total_ext. intros i _. unfold line. ring.
Qed.
Lemma S_line u z t v : S' u (line z t v) = S' u z + t * S' u v.
Proof. unfold Sd. rewrite <- total_mult, <- total_plus. apply total_ext. intros i _. unfold line. ring. Qed.
Lemma S_sym u v : S' u v = S' v u.
Proof. unfold Sd. apply total_ext. intros i _. ring. Qed.
Lemma radial_line (F h : R -> R) z v t : (forall z, is_derive F z (z * h z)) -> (forall z, continuous h z) ->
  is_derive (fun t => F (sqrt (Q (line z t v)))) t (S' v (line z t v) * h (sqrt (Q (line z t v)))).
Proof.
  intros FD hC. apply (is_derive_ext (fun t => phi F h (Q z + 2 * t * S' v z + t ^ 2 * S' v v))).
  { intros u. rewrite <- Q_line. unfold phi. destruct Rlt_dec as [L|_]; [pose proof (Qm_pos m (line z u v)); lra|reflexivity]. }
  evar_last; [apply (is_derive_comp (phi F h) (fun t => Q z + 2 * t * S' v z + t ^ 2 * S' v v)); [apply (phi_derive F h FD hC)|auto_derive; [trivial|reflexivity]]|].
  rewrite <- Q_line, S_line. unfold scal. cbn. unfold mult. cbn. field.
Qed.
Definition mk (a b : option array * array) : R :=
  let z := vdiff (snd a) (snd b) in
  match fst a, fst b with
  | None, None => Fn p 0 (sqrt (Q z))
  | Some v, None => S' v z * h1' (sqrt (Q z))
  | None, Some w => - (S' w z * h1' (sqrt (Q z)))
  | Some v, Some w => - (S' v w * h1' (sqrt (Q z)) + S' v z * S' w z * h2' (sqrt (Q z)))
  end.
Definition mord (a : option array * array) : nat := match fst a with None => 0 | Some _ => 1 end.
Lemma d0 z v t : is_derive (fun t => Fn p 0 (sqrt (Q (line z t v)))) t (S' v (line z t v) * h1' (sqrt (Q (line z t v)))).
Proof. apply radial_line; [apply (F0_h1 p q1 Hq)|apply (h1_cont p q1 Hq)]. Qed.
Lemma d1 u z v t : is_derive (fun t => S' u (line z t v) * h1' (sqrt (Q (line z t v)))) t
  (S' u v * h1' (sqrt (Q (line z t v))) + S' u (line z t v) * S' v (line z t v) * h2' (sqrt (Q (line z t v)))).
Proof.
  pose proof (radial_line h1' h2' z v t (h1_h2 p q1 Hq npd pd2 Hn Hd) (h2_cont p npd pd2 Hd)) as D.
  assert (D' : is_derive (fun t => S' u (line z t v)) t (S' u v)).
  { apply (is_derive_ext (fun t => S' u z + t * S' u v)); [intros r; now rewrite S_line|]. auto_derive; [trivial|ring]. }
  evar_last; [apply (is_derive_mult (fun t => S' u (line z t v)) (fun t => h1' (sqrt (Q (line z t v)))) t _ _ D' D); intros; apply Rmult_comm|].
  unfold plus, mult. cbn. ring.
Qed.
Lemma vd0 x h v y : vdiff (line x h v) y = line (vdiff x y) h v.
Proof. extensionality j. unfold vdiff, line. ring. Qed.
Lemma vd1 x h v y : vdiff y (line x h v) = line (vdiff y x) (- h) v.
Proof. extensionality j. unfold vdiff, line. ring. Qed.
Lemma quotient_lim_opp (f : R -> R) (l : R) : is_derive f 0 l -> is_lim_seq (fun n => (f (- / NN n) - f 0) / / NN n) (- l).
Proof.
  intros D. assert (D' : is_derive (fun t => f ((-1) * t + 0)) 0 ((-1) * l)) by (apply derive_lin; replace (-1 * 0 + 0) with 0 by ring; exact D).
  apply quotient_lim in D'. replace (- l) with (-1 * l) by ring. apply (is_lim_seq_ext _ _ _) with (2 := D'). intros n. f_equal. f_equal; f_equal; ring.
Qed.
Lemma line_opp x v t : line x (- t) v = line x t (fun i => - v i).
Proof. extensionality j. unfold line. ring. Qed.
Lemma mixed_line (G G' G'' : R -> R) : (forall t, is_derive G t (G' t)) -> (forall t, is_derive G' t (G'' t)) -> continuous G'' 0 ->
  is_lim_seq (fun n => (G 0 - G (/ NN n) - G (- / NN n) + G 0) / (/ NN n * / NN n)) (- G'' 0).
Proof.
  intros D D' C.
  assert (L := mixed_lim (fun s t => G (s - t)) (fun s t => G' (s - t)) (fun s t => - G'' (s - t))). cbn beta in L.
  replace (- G'' 0) with (- G'' (0 - 0)) by (do 2 f_equal; ring). eapply is_lim_seq_ext; [|apply L; [intros r t|intros r t|]].
  - intros n. cbn beta. rewrite !Rminus_0_r. replace (/ NN n - / NN n) with 0 by ring. replace (0 - / NN n) with (- / NN n) by ring. reflexivity.
  - apply (is_derive_ext (fun r => G (1 * r + - t))); [intros; f_equal; ring|]. replace (G' (r - t)) with (1 * G' (1 * r + - t)) by (rewrite Rmult_1_l; f_equal; ring).
    apply derive_lin. apply D.
  - apply (is_derive_ext (fun t => G' ((-1) * t + r))); [intros; f_equal; ring|]. replace (- G'' (r - t)) with (-1 * G'' ((-1) * t + r)) by (replace (-1 * t + r) with (r - t) by ring; ring).
    apply derive_lin. apply D'.
  - apply (continuity_2d_pt_ext (fun r t => - (G'' (r - t)))); [reflexivity|]. apply continuity_2d_pt_opp.
    apply (continuity_1d_2d_pt_comp G'' (fun r t => r - t)).
    + rewrite Rminus_0_r. apply continuity_pt_filterlim. exact C.
    + apply continuity_2d_pt_minus; [apply continuity_2d_pt_id1|apply continuity_2d_pt_id2].
Qed.
Hypothesis Hp : mt_nu m = HalfInt p.
Lemma multi_psd l : 0 <= form mk l.
Proof.
  apply (closure_psd mk (fun _ => True) mord) with (n := oweight mord l); [| |apply le_n|auto].
  - clear l. intros l H.
    assert (E : form mk l = form (fun x y => matern_half p (sqrt (sqdist (all_indices sh) s x y))) (map (fun p => (fst p, snd (snd p))) l)); [|rewrite E; apply matern_psd].
    unfold form. rewrite sumR_map. apply sumR_ext. intros [c [o x]] Ip. rewrite sumR_map. apply sumR_ext. intros [d [o' y]] Iq. cbn [fst snd].
    destruct (H _ Ip) as [_ A], (H _ Iq) as [_ B]. cbn [snd mord fst] in A, B. destruct o; [discriminate|]. destruct o'; [discriminate|].
    f_equal. unfold mk. cbn [fst snd]. rewrite half_E. unfold Fn, sqdist, Qm. rewrite sumR_total.
    replace (total (map (fun i => (vdiff x y i * s i) ^ 2) (all_indices sh))) with (total (map (fun i => (s i * (x i - y i)) ^ 2) (all_indices sh))); [reflexivity|].
    apply total_ext. intros i _. unfold vdiff. ring.
  - clear l. intros [[v|] x] k _ E; cbn [mord fst] in E; [|discriminate]. injection E as <-.
    exists (fun n => (None, line x (/ NN n) v)), (None, x). split; [intros; split; [exact Logic.I|reflexivity]|]. split; [exact Logic.I|]. split; [reflexivity|]. split; [|split].
    + intros [[w|] y] _; unfold mk; cbn [fst snd].
      * pose proof (is_derive_opp _ _ _ (d1 w (vdiff x y) v 0)) as D. rewrite line0 in D. apply quotient_lim in D.
        replace (- (S' v w * h1' (sqrt (Q (vdiff x y))) + S' v (vdiff x y) * S' w (vdiff x y) * h2' (sqrt (Q (vdiff x y)))))
          with (opp (S' w v * h1' (sqrt (Q (vdiff x y))) + S' w (vdiff x y) * S' v (vdiff x y) * h2' (sqrt (Q (vdiff x y))))) by (rewrite (S_sym w v); unfold opp; cbn; ring).
        apply (is_lim_seq_ext _ _ _) with (2 := D). intros n. rewrite Rplus_0_l, line0, vd0. reflexivity.
      * pose proof (d0 (vdiff x y) v 0) as D. rewrite line0 in D. apply quotient_lim in D.
        apply (is_lim_seq_ext _ _ _) with (2 := D). intros n. rewrite Rplus_0_l, line0, vd0. reflexivity.
    + intros [[w|] y] _; unfold mk; cbn [fst snd].
      * pose proof (d1 w (vdiff y x) v 0) as D. rewrite line0 in D. apply quotient_lim_opp in D.
        replace (- (S' w v * h1' (sqrt (Q (vdiff y x))) + S' w (vdiff y x) * S' v (vdiff y x) * h2' (sqrt (Q (vdiff y x)))))
          with (- (S' w v * h1' (sqrt (Q (vdiff y x))) + S' w (vdiff y x) * S' v (vdiff y x) * h2' (sqrt (Q (vdiff y x))))) by reflexivity.
        apply (is_lim_seq_ext _ _ _) with (2 := D). intros n. rewrite line0, vd1. reflexivity.
      * pose proof (d0 (vdiff y x) v 0) as D. rewrite line0 in D. apply quotient_lim_opp in D.
        apply (is_lim_seq_ext _ _ _) with (2 := D). intros n. rewrite line0, vd1. reflexivity.
    + set (z0 := vdiff x x).
      pose proof (mixed_line _ _ _ (d0 z0 v) (d1 v z0 v)) as L. cbn beta in L. rewrite line0 in L.
      unfold mk; cbn [fst snd]. fold z0. eapply is_lim_seq_ext; [|apply L].
      * intros n. cbn beta. rewrite !vd1, !vd0. fold z0. rewrite line_line, Rplus_opp_r, line0. reflexivity.
      * assert (CQ : continuous (fun t => sqrt (Q (line z0 t v))) 0).
        { apply (continuous_ext (fun t => sqrt (Q z0 + 2 * t * S' v z0 + t ^ 2 * S' v v))); [intros; now rewrite Q_line|].
          apply (continuous_comp (fun t => Q z0 + 2 * t * S' v z0 + t ^ 2 * S' v v) sqrt); [|apply continuous_sqrt].
          apply (ex_derive_continuous (fun t => Q z0 + 2 * t * S' v z0 + t ^ 2 * S' v v)). auto_derive. trivial. }
        assert (CS : continuous (fun t => S' v (line z0 t v)) 0).
        { apply (continuous_ext (fun t => S' v z0 + t * S' v v)); [intros; now rewrite S_line|].
          apply (ex_derive_continuous (fun t => S' v z0 + t * S' v v)). auto_derive. trivial. }
        apply (continuous_plus (V := R_NormedModule)).
        -- apply (continuous_scal_r (V := R_NormedModule)). apply (continuous_comp (fun t => sqrt (Q (line z0 t v))) h1'); [exact CQ|apply (h1_cont p q1 Hq)].
        -- apply (continuous_mult (K := R_AbsRing)); [now apply (continuous_mult (K := R_AbsRing))|].
           apply (continuous_comp (fun t => sqrt (Q (line z0 t v))) h2'); [exact CQ|apply (h2_cont p npd pd2 Hd)].
Qed.
End Multi.
