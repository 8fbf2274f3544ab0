(** C57: the lazy tensors of the Matérn derivatives hold the values at all pairs of points. *)
From Coq Require Import List Reals Bool Arith ZArith Lia Lra.
From Verif Require Import Base NdArray NdData PolyModel PolyClassModel BlockModel CovModel CrossModel ShapedModel DtypeModel DtypeProps
  PolyCalc FunExprModel DiffopModel LfoModel KernelModel KernelSound BatchModel BatchSpec BatchProofs BatchEval BatchProps.
Import ListNotations.
Open Scope R_scope.

Definition dim (sh : shape) : nat := match sh with [] => 1 | d :: _ => d end.
Definition kidx (sh : shape) (k : nat) : index := match sh with [] => [] | _ => [k] end.
Lemma all_kidx sh : (length sh <= 1)%nat -> all_indices sh = map (kidx sh) (seq 0 (dim sh)).
Proof.
  destruct sh as [|d [|e sh]]; cbn [length dim kidx]; intros H; [reflexivity| |lia]. cbn [all_indices map].
  generalize (seq 0 d). intros l. induction l as [|x l IH]; [reflexivity|]. cbn. now rewrite <- IH.
Qed.
(** Vectors over the input axes, and numbers. *)
Definition lv (sh : shape) (L : lazy) (g : nat -> nat -> index -> R) : Prop := l_dim L = dim sh /\ forall i j k, (k < dim sh)%nat -> l_at L i j k = g i j (kidx sh k).
Definition ln (L : lazy) (g : nat -> nat -> R) : Prop := l_dim L = 1%nat /\ forall i j, l_at L i j 0%nat = g i j.
Lemma lv_pm sh a g : (length sh <= 1)%nat -> holds Ks [] sh a (fun _ j => g j) -> exists L, pm a = Ok L /\ lv sh L (fun _ _ => g).
Proof.
  intros H (_ & Sa & V). cbn [kshape] in Sa. unfold pm. rewrite Sa. destruct sh as [|d [|e sh]]; cbn in H; [| |lia]; eexists; (split; [reflexivity|]); (split; [reflexivity|]); intros i j k Hk; cbn in Hk |- *.
  - exact (V [] [] (Forall2_nil _) (Forall2_nil _)).
  - refine (V [] [k] (Forall2_nil _) _). constructor; [exact Hk|constructor].
Qed.
Lemma ln_pm a r : holds K0 [] [] a (fun _ _ => r) -> exists L, pm a = Ok L /\ ln L (fun _ _ => r).
Proof. intros (_ & Sa & V). cbn [kshape] in Sa. unfold pm. rewrite Sa. eexists. split; [reflexivity|]. split; [reflexivity|]. intros i j. exact (V [] [] (Forall2_nil _) (Forall2_nil _)). Qed.
Lemma lv_lv op sh A B g h : lv sh A g -> lv sh B h -> exists L, lbin op A B = Ok L /\ lv sh L (fun i j k => op (g i j k) (h i j k)).
Proof. intros [DA VA] [DB VB]. unfold lbin. rewrite DA, DB, Nat.eqb_refl. eexists. split; [reflexivity|]. split; [reflexivity|]. intros i j k Hk. cbn. now rewrite VA, VB. Qed.
Lemma lv_ln op sh A B g h : lv sh A g -> ln B h -> exists L, lbin op A B = Ok L /\ lv sh L (fun i j k => op (g i j k) (h i j)).
Proof.
  intros [DA VA] [DB VB]. unfold lbin. rewrite DA, DB. destruct (Nat.eqb_spec (dim sh) 1) as [E|E]; eexists; (split; [reflexivity|]); (split; [reflexivity|]); intros i j k Hk; cbn.
  - assert (k = 0)%nat as -> by lia. rewrite VB, VA by exact Hk. reflexivity.
  - now rewrite VB, VA.
Qed.
Lemma ln_ln op A B g h : ln A g -> ln B h -> exists L, lbin op A B = Ok L /\ ln L (fun i j => op (g i j) (h i j)).
Proof. intros [DA VA] [DB VB]. unfold lbin. rewrite DA, DB. eexists. split; [reflexivity|]. split; [reflexivity|]. intros i j. cbn. now rewrite VA, VB. Qed.
Lemma ln_fun f A g : ln A g -> ln (lfun f A) (fun i j => f (g i j)).
Proof. intros [DA VA]. split; [exact DA|]. intros i j. cbn. now rewrite VA. Qed.
Lemma ln_sum sh A g : (length sh <= 1)%nat -> lv sh A g -> ln (lsum A) (fun i j => bsum sh (g i j)).
Proof.
  intros H [DA VA]. split; [reflexivity|]. intros i j. cbn [lsum l_at]. unfold bsum. rewrite all_kidx, map_map, DA by exact H. f_equal. apply map_ext_in. intros k Hk. apply in_seq in Hk. apply VA. lia.
Qed.
Lemma ln_horner cs : forall A g X x, ln A g -> ln X x -> exists L, lhorner A cs X = Ok L /\ ln L (fun i j => fold_left (hstep (x i j)) cs (g i j)).
Proof.
  induction cs as [|c cs IH]; intros A g X x HA HX; cbn [lhorner fold_left]; [eauto|].
  destruct (ln_ln Rmult _ _ _ _ HA HX) as (B & -> & HB). cbn [bind]. destruct (ln_pm (num c) c (num_holds c [] [])) as (P & -> & HP). cbn [bind].
  destruct (ln_ln Rplus _ _ _ _ HB HP) as (C & -> & HC). cbn [bind]. exact (IH _ _ _ _ HC HX).
Qed.
Lemma ln_poly q X x : py_valid q -> ln X x -> exists L, lpoly q X = Ok L /\ ln L (fun i j => py_eval q (x i j)).
Proof.
  intros V HX. unfold lpoly. destruct (rev (float_coeffs q)) as [|c cs] eqn:E.
  { exfalso. apply V. apply (f_equal (@rev R)) in E. change (car RF) with R in *. rewrite rev_involutive in E. exact E. }
  destruct (ln_pm (num c) c (num_holds c [] [])) as (P & -> & HP). cbn [bind]. destruct (ln_horner cs _ _ _ _ HP HX) as (L & -> & HL). exists L. split; [reflexivity|]. split; [apply HL|].
  intros i j. destruct HL as [_ ->]. symmetry. now apply py_eval_horner.
Qed.
Section Pts.
Variables (x0 y : tnd) (n m : nat) (sh : shape).
Hypothesis N : (length sh <= 1)%nat.
Hypothesis S0 : t_shape x0 = n :: sh.
Hypothesis S1 : t_shape y = m :: sh.
Definition px (i : nat) : array := pt (F := RF) (t_arr x0) [i].
Definition py (j : nat) : array := pt (F := RF) (t_arr y) [j].
Lemma ldiff_ok : exists L, ldiff x0 y = Ok L /\ lv sh L (fun i j => vdiff (px i) (py j)).
Proof.
  unfold ldiff, rows. rewrite S0, S1. destruct sh as [|d [|e l]]; cbn in N; [| |lia]; cbn [bind fst snd]; unfold lbin; cbn [l_dim l_at]; rewrite Nat.eqb_refl; eexists; (split; [reflexivity|]); (split; [reflexivity|]); intros i j k Hk; reflexivity.
Qed.
Lemma sdiff_ok sc k : mt_shape k = sh -> lens_ok sc sh (mt_len k) ->
  exists d s L, ldiff x0 y = Ok d /\ pm (mt_scale_t sc k) = Ok s /\ lbin Rmult d s = Ok L /\ lv sh L (fun i j => mt_diffs k (px i) (py j)).
Proof.
  intros E Le. destruct ldiff_ok as (d & Ed & Hd). exists d. rewrite <- E in Le. pose proof (mtscale_holds sc k [] Le) as Hs. rewrite E in Hs. destruct sc; cbn [klen] in Hs.
  - assert (Hs' : holds K0 [] [] (mt_scale_t true k) (fun _ _ => mt_scale k [])).
    { unfold mt_scale_t, tlen. repeat split. }
    destruct (ln_pm _ _ Hs') as (s & Es & Ls). exists s. destruct (lv_ln Rmult _ _ _ _ _ Hd Ls) as (L & EL & HL). exists L. repeat split; auto; [apply HL|].
    intros i j k' Hk. destruct HL as [_ ->]; [|exact Hk]. unfold mt_diffs. cbv beta. f_equal. unfold mt_scale. f_equal. symmetry. apply Le; [reflexivity|]. rewrite E. destruct sh as [|? [|? ?]]; cbn in N, Hk |- *; [constructor|repeat constructor; exact Hk|lia].
  - destruct (lv_pm sh _ (mt_scale k) N Hs) as (s & Es & Ls). exists s. destruct (lv_lv Rmult _ _ _ _ _ Hd Ls) as (L & EL & HL). exists L. repeat split; auto; apply HL.
Qed.
Lemma norm_ok k L : mt_shape k = sh -> lv sh L (fun i j => mt_diffs k (px i) (py j)) -> exists q, lbin Rmult L L = Ok q /\ ln (lfun sqrt (lsum q)) (fun i j => mt_dist k (px i) (py j)).
Proof.
  intros E H. destruct (lv_lv Rmult _ _ _ _ _ H H) as (q & Eq & Hq). exists q. split; [exact Eq|]. pose proof (ln_fun sqrt _ _ (ln_sum sh _ _ N Hq)) as [D V]. split; [exact D|].
  intros i j. rewrite V. unfold mt_dist, bnorm, bnorm_sq. rewrite E. f_equal. unfold bsum. f_equal. apply map_ext. intros a. ring.
Qed.
Lemma ldists_ok sc k : mt_shape k = sh -> lens_ok sc sh (mt_len k) -> exists r, ldists (mt_scale_t sc k) x0 y = Ok r /\ ln r (fun i j => mt_dist k (px i) (py j)).
Proof.
  intros E Le. unfold ldists. destruct (sdiff_ok sc k E Le) as (d & s & L & -> & -> & E3 & H). cbn [bind]. rewrite E3. cbn [bind]. destruct (norm_ok k L E H) as (q & -> & Hq). cbn [bind]. eauto.
Qed.
End Pts.

Definition matern_derivative (c : cov) : Prop :=
  match c with CMatDir _ _ _ _ | CMatDirDir _ _ _ _ _ | CUMatDirDir _ _ _ _ | CUMatLap _ _ _ _ | CUMatLapLap _ _ _ _ | CUMatDirLap _ _ _ _ _ => True | _ => False end.
Ltac lstep := match goal with
  | A : lv ?s ?x _, B : lv ?s ?y _ |- context [lbin ?op ?x ?y] => let L := fresh "L" in let E := fresh "E" in let H := fresh "H" in destruct (lv_lv op _ _ _ _ _ A B) as (L & E & H); rewrite E; cbn [bind]; clear E; try (apply (ln_sum _ _ _ ltac:(eassumption)) in H)
  | A : ln ?x _, B : ln ?y _ |- context [lbin ?op ?x ?y] => let L := fresh "L" in let E := fresh "E" in let H := fresh "H" in destruct (ln_ln op _ _ _ _ A B) as (L & E & H); rewrite E; cbn [bind]; clear E
  | V : py_valid ?q, A : ln ?x _ |- context [lpoly ?q ?x] => let L := fresh "L" in let E := fresh "E" in let H := fresh "H" in destruct (ln_poly q _ _ V A) as (L & E & H); rewrite E; cbn [bind]; clear E
  end.
Theorem C57_keops : forall sc c x0 x1 n m sh, let y := match x1 with Some y => y | None => x0 end in
  t_shape x0 = n :: sh -> t_shape y = m :: sh -> (length sh <= 1)%nat -> matern_derivative c -> supported NumPy sc false false False sh c ->
  exists L, keops sc c x0 x1 = Ok L /\ l_dim L = 1%nat /\
    forall i j, l_at L i j 0%nat = ceval c (pt (F := RF) (t_arr x0) [i]) (pt (F := RF) (t_arr y) [j]).
Proof.
  intros sc c x0 x1 n m sh y S0 S1 N D H.
  enough (X : exists L, keops sc c x0 x1 = Ok L /\ ln L (fun i j => ceval c (px x0 i) (py y j))).
  { destruct X as (L & E & X1 & X2). exists L. repeat split; auto. }
  unfold keops. fold y.
  destruct H as [| | | | | | |k v r q E L _ V|k v v' q q' E L _ V V'|k v v' q E L _ Z V|k w r q E L _ Z V|k w w' q E L _ Z V|k v w r q E L _ V| | |]; try contradiction; clear D;
  match type of E with mt_shape ?k = _ =>
    try (destruct (ldists_ok x0 y n m sh N S0 S1 sc k E L) as (r0 & -> & Hr); cbn [bind]);
    try (destruct (sdiff_ok x0 y n m sh N S0 S1 sc k E L) as (d & s & Ld & -> & -> & Es & Hd); cbn [bind]; rewrite Es; cbn [bind]; clear Es; destruct (norm_ok x0 y sh N k Ld E Hd) as (n2 & En & Hr)) end;
  assert (L' := L); rewrite <- E in L'.
  - destruct (dirs_ok sc k v L') as (s0 & -> & D0). cbn [bind]. specialize (D0 []). rewrite E in D0.
    assert (X : exists s1, (if r then Ok s0 else tbin Rmult s0 (num (-1))) = Ok s1 /\ holds Ks [] sh s1 (fun _ j => matdir_scaled k v r j)).
    { destruct r; [eauto|]. destruct (tbin_holds Rmult _ _ _ _ _ _ _ _ _ _ D0 (num_holds (-1) [] sh)) as (s1 & E1 & H1). exists s1. split; [exact E1|exact H1]. }
    destruct X as (s1 & -> & H1). cbn [bind]. destruct (lv_pm sh s1 _ N H1) as (P & -> & HP). cbn [bind].
    destruct (lv_lv Rmult _ _ _ _ _ HP Hd) as (P' & -> & HP'). cbn [bind]. apply (ln_sum sh _ _ N) in HP'. rewrite En. cbn [bind].
    pose proof (ln_fun (fun t => exp (- t)) _ _ Hr) as He. repeat lstep. eexists. split; [reflexivity|]. unfold ceval, matdir_eval. rewrite E. assumption.
  - destruct (dirs_ok sc k v L') as (s0 & -> & D0). destruct (dirs_ok sc k v' L') as (s1 & -> & D1). cbn [bind]. specialize (D0 []). specialize (D1 []).
    destruct (dirprod_ok k v v' s0 s1 D0 D1) as (s01 & -> & D01). cbn [bind]. rewrite E in D0, D1.
    destruct (lv_pm sh s0 _ N D0) as (P & -> & HP). cbn [bind]. destruct (lv_lv Rmult _ _ _ _ _ HP Hd) as (P' & -> & HP'). cbn [bind]. apply (ln_sum sh _ _ N) in HP'.
    destruct (lv_pm sh s1 _ N D1) as (Q & -> & HQ). cbn [bind]. destruct (lv_lv Rmult _ _ _ _ _ HQ Hd) as (Q' & -> & HQ'). cbn [bind]. apply (ln_sum sh _ _ N) in HQ'. rewrite En. cbn [bind].
    destruct (ln_pm _ _ (D01 [] [])) as (I & -> & HI). cbn [bind]. pose proof (ln_fun (fun t => exp (- t)) _ _ Hr) as He. clear HP HQ Hd.
    destruct (ln_poly q _ _ V Hr) as (A & -> & HA). cbn [bind]. destruct (ln_ln Rmult _ _ _ _ HI HA) as (B & -> & HB). cbn [bind].
    destruct (ln_ln Rmult _ _ _ _ HP' HQ') as (C & -> & HC). cbn [bind]. destruct (ln_poly q' _ _ V' Hr) as (A' & -> & HA'). cbn [bind].
    destruct (ln_ln Rmult _ _ _ _ HC HA') as (C' & -> & HC'). cbn [bind]. destruct (ln_ln Rminus _ _ _ _ HB HC') as (F & -> & HF). cbn [bind].
    destruct (ln_ln Rmult _ _ _ _ HF He) as (G & -> & HG). exists G. split; [reflexivity|]. unfold ceval, matdirdir_eval. rewrite E. exact HG.
  - rewrite <- E in Z. destruct (udirdir_ok sc k v v' Z L') as (p & p' & f & -> & E' & E'' & _ & F). cbn [bind]. rewrite E'. cbn [bind]. rewrite E''. cbn [bind].
    destruct (ln_pm _ _ (F [] [])) as (I & -> & HI). cbn [bind]. pose proof (ln_fun (fun t => exp (- t)) _ _ Hr) as He. repeat lstep. eexists. split; [reflexivity|]. assumption.
  - rewrite <- E in Z. destruct (ulap_ok sc k w Z L') as (p & p' & f & -> & E' & E'' & _ & F). cbn [bind]. rewrite E'. cbn [bind]. rewrite E''. cbn [bind].
    destruct (ln_pm _ _ (F [] [])) as (I & -> & HI). cbn [bind]. pose proof (ln_fun (fun t => exp (- t)) _ _ Hr) as He. repeat lstep. eexists. split; [reflexivity|]. assumption.
  - rewrite <- E in Z. destruct (ulaplap_ok sc k w w' Z L') as (p & p' & f & -> & E' & E'' & _ & F). cbn [bind]. rewrite E'. cbn [bind]. rewrite E''. cbn [bind].
    destruct (ln_pm _ _ (F [] [])) as (I & -> & HI). cbn [bind]. pose proof (ln_fun (fun t => exp (- t)) _ _ Hr) as He. repeat lstep. eexists. split; [reflexivity|]. assumption.
  - destruct (udirlap_ok sc k v w r L') as (s1 & -> & H1). cbn [bind]. specialize (H1 []). rewrite E in H1. destruct (lv_pm sh s1 _ N H1) as (P & -> & HP). cbn [bind].
    destruct (lv_lv Rmult _ _ _ _ _ HP Hd) as (P' & -> & HP'). cbn [bind]. apply (ln_sum sh _ _ N) in HP'. rewrite En. cbn [bind].
    pose proof (ln_fun (fun t => exp (- t)) _ _ Hr) as He. repeat lstep. eexists. split; [reflexivity|]. unfold ceval, umatdirlap_eval. rewrite E. assumption.
Qed.
Print Assumptions C57_keops.
Example C57_ex_keops : exists L, keops false (CMatDir ex_m2 (fun _ => 1) true ex_q) ex_y None = Ok L /\ l_dim L = 1%nat /\
  forall i j, l_at L i j 0%nat = ceval (CMatDir ex_m2 (fun _ => 1) true ex_q) (pt (F := RF) (t_arr ex_y) [i]) (pt (F := RF) (t_arr ex_y) [j]).
Proof.
  apply (C57_keops false _ ex_y None 4 4 [2%nat]); [reflexivity|reflexivity|cbn; lia|exact I|].
  constructor; [reflexivity|apply ex_lens|auto|apply ex_valid].
Qed.
