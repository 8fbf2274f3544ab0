(** Lemmas about covariance functions with several outputs. *)
From Coq Require Import List Arith Lia Bool.
From Verif Require Import Base NdArray NdData BlockModel BlockSpec BlockProofs BlockProps CovModel CovSpec CovProofs CrossModel CrossSpec CrossProofs.
Import ListNotations.

Section P.
Context {F : fops} (LF : flaws F).
Implicit Types (k : kfun F) (b sh : shape).

(** Arrays of points with the batch shapes [b0], [b1]. *)
Definition points (insh : shape) (x0 : nd F) (x1 : option (nd F)) (b0 b1 : shape) : Prop := nshape x0 = b0 ++ insh /\ nshape (second x0 x1) = b1 ++ insh.
Lemma check_ok insh x0 x1 b0 b1 b : points insh x0 x1 b0 b1 -> broadcast_shapes b0 b1 = Ok b -> check_shapes insh x0 x1 = Ok b.
Proof. intros [E0 E1] B. unfold check_shapes. now rewrite (batch_shape_ok _ _ _ E0), (batch_shape_ok _ _ _ E1). Qed.

Definition leaf_value (v : point F -> point F -> index -> index -> F) (x0 : nd F) (x1 : option (nd F)) (b0 b1 : shape) : index -> index -> index -> F :=
  fun i o q => v (pt x0 (operand_index b0 i)) (pt (second x0 x1) (operand_index b1 i)) o q.
Lemma leaf_eval_ok insh o0 o1 v x0 x1 b0 b1 b : points insh x0 x1 b0 b1 -> broadcast_shapes b0 b1 = Ok b ->
  exists a, leaf_eval insh o0 o1 v x0 x1 = Ok a /\ cov_array a b o0 o1 (leaf_value v x0 x1 b0 b1).
Proof.
  intros [E0 E1] B. unfold leaf_eval. rewrite (batch_shape_ok _ _ _ E0), (batch_shape_ok _ _ _ E1). cbn [bind]. rewrite B. cbn [bind].
  eexists. split; [reflexivity|]. split; [reflexivity|]. intros i o q Hi Ho Hq. cbn [nat_].
  apply valid_index_length in Hi, Ho. rewrite !firstn_app_l, !skipn_app_l by assumption. now rewrite firstn_app_l.
Qed.
Lemma finish_ok k b (a : nd F) g : cov_array a b (k_out0 k) (k_out1 k) g -> k_finish k b a = Ok a.
Proof. intros [E _]. unfold k_finish. now rewrite E, shape_eqb_refl. Qed.
Lemma leaf_call insh o0 o1 v x0 x1 b0 b1 b : points insh x0 x1 b0 b1 -> broadcast_shapes b0 b1 = Ok b ->
  exists a, k_call (KLeaf insh o0 o1 v) x0 x1 = Ok a /\ cov_array a b o0 o1 (leaf_value v x0 x1 b0 b1).
Proof.
  intros H B. cbn [k_call k_in]. rewrite (check_ok _ _ _ _ _ _ H B). cbn [bind].
  destruct (leaf_eval_ok insh o0 o1 v x0 x1 b0 b1 b H B) as [a [-> S]]. cbn [bind]. exists a. split; [|exact S].
  now apply (finish_ok (KLeaf insh o0 o1 v) b a _ S).
Qed.
Lemma leaf_jax insh o0 o1 v x0 x1 b0 b1 b : points insh x0 x1 b0 b1 -> broadcast_shapes b0 b1 = Ok b ->
  exists a, k_jax (KLeaf insh o0 o1 v) x0 x1 = Ok a /\ cov_array a b o0 o1 (leaf_value v x0 x1 b0 b1).
Proof.
  intros H B. cbn [k_jax k_in]. rewrite (check_ok _ _ _ _ _ _ H B). cbn [bind].
  destruct (leaf_eval_ok insh o0 o1 v x0 x1 b0 b1 b H B) as [a [-> S]]. cbn [bind]. exists a. split; [|exact S].
  now apply (finish_ok (KLeaf insh o0 o1 v) b a _ S).
Qed.
Lemma leaf_linop insh o0 o1 v x0 x1 b0 b1 : points insh x0 x1 b0 b1 ->
  exists m, k_linop (KLeaf insh o0 o1 v) x0 x1 = Ok m /\
    cov_matrix m b0 b1 o0 o1 (fun i j o q => v (pt x0 i) (pt (second x0 x1) j) o q).
Proof.
  intros [E0 E1]. cbn [k_linop]. rewrite (batch_shape_ok _ _ _ E0), (batch_shape_ok _ _ _ E1). cbn [bind].
  eexists. split; [reflexivity|]. unfold cov_matrix. cbn [nrows ncols entry]. rewrite !size_app. split; [reflexivity|]. split; [reflexivity|].
  intros i j o q Hi Hj Ho Hq. rewrite !unravel_ravel by now apply valid_index_app.
  apply valid_index_length in Ho, Hq. rewrite !firstn_app_l, !skipn_app_l by assumption. reflexivity.
Qed.
Lemma zero_both insh o0 o1 x0 x1 b0 b1 b : points insh x0 x1 b0 b1 -> broadcast_shapes b0 b1 = Ok b ->
  (exists a, k_call (KZero insh o0 o1) x0 x1 = Ok a /\ cov_array a b o0 o1 (fun _ _ _ => f0)) /\
  (exists a, k_jax (KZero insh o0 o1) x0 x1 = Ok a /\ cov_array a b o0 o1 (fun _ _ _ => f0)).
Proof.
  intros H B. cbn [k_call k_jax k_in]. rewrite (check_ok _ _ _ _ _ _ H B). cbn [bind].
  unfold k_finish. cbn [nshape k_out0 k_out1]. rewrite shape_eqb_refl.
  split; (eexists; split; [reflexivity|]; split; [reflexivity|]; reflexivity).
Qed.
Lemma zero_linop insh o0 o1 x0 x1 n0 n1 : points insh x0 x1 [n0] [n1] ->
  exists m, k_linop (KZero insh o0 o1) x0 x1 = Ok m /\ cov_matrix m [n0] [n1] o0 o1 (fun _ _ _ _ => f0).
Proof.
  intros [E0 E1]. cbn [k_linop]. rewrite (batch_shape_ok _ _ _ E0), (batch_shape_ok _ _ _ E1). cbn [bind].
  eexists. split; [reflexivity|]. unfold cov_matrix. cbn [nrows ncols entry zero_mat]. rewrite !size_app. cbn [size fold_right].
  repeat split; auto; f_equal; lia.
Qed.

(** ** Independent outputs *)
Lemma Forall2_nth_d {A B} (P : A -> B -> Prop) l m i d : Forall2 P l m -> i < length l -> exists x, nth_error l i = Some x /\ P x (nth i m d).
Proof.
  intros H. revert i. induction H as [|x y l m Pxy H IH]; intros i Hi; [cbn in Hi; lia|].
  destruct i as [|i]; [cbn; eauto|]. cbn. apply IH. cbn in Hi. lia.
Qed.
(** Components numbered. *)
Lemma mapR_nth {A B} (f : A -> result B) (Q : nat -> B -> Prop) l :
  (forall n c, nth_error l n = Some c -> exists a, f c = Ok a /\ Q n a) ->
  exists ys, mapR f l = Ok ys /\ length ys = length l /\ forall n d, n < length l -> Q n (nth n ys d).
Proof.
  revert Q. induction l as [|x l IH]; intros Q H; cbn [mapR].
  - exists []. repeat split. intros n d Hn. cbn in Hn. lia.
  - destruct (H 0 x eq_refl) as [y [-> Q0]]. cbn [bind].
    destruct (IH (fun n => Q (S n))) as [ys [-> [L Qs]]]; [intros n c E; exact (H (S n) c E)|]. cbn [bind].
    exists (y :: ys). split; [reflexivity|]. split; [cbn; congruence|]. intros [|n] d Hn; [exact Q0|]. apply Qs. cbn in Hn. lia.
Qed.
Definition diag_value (g : nat -> index -> F) : index -> index -> index -> F :=
  fun i o q => if nth 0 o 0 =? nth 0 q 0 then g (nth 0 o 0) i else f0.
Lemma ind_any (call : kfun F -> nd F -> option (nd F) -> result (nd F)) l x0 x1 b g :
  (forall n c, nth_error l n = Some c -> exists a, call c x0 x1 = Ok a /\ cov_array a b [] [] (fun i _ _ => g n i)) ->
  exists a, bind (mapR (fun c => call c x0 x1) l) (fun evals =>
            Ok (Nd (b ++ [length l; length l]) (fun i =>
                  match skipn (length b) i with
                  | [p; q] => if p =? q then nat_ (nth p evals (Nd [] (fun _ => f0))) (firstn (length b) i) else f0
                  | _ => f0
                  end))) = Ok a /\ cov_array a b [length l] [length l] (diag_value g).
Proof.
  intros H. destruct (mapR_nth _ _ _ H) as [ys [-> [L Q]]]. cbn [bind]. eexists. split; [reflexivity|]. split; [reflexivity|].
  intros i o q Hi Ho Hq. cbn [nat_]. pose proof (valid_index_length _ _ Hi) as Li.
  inversion Ho as [|p ? o' ? Hp Ho']; subst. inversion Ho'; subst. inversion Hq as [|r ? q' ? Hr Hq']; subst. inversion Hq'; subst.
  cbn [app]. rewrite skipn_app_l, firstn_app_l by exact Li. unfold diag_value. cbn [nth].
  destruct (Nat.eqb_spec p r); [|reflexivity]. destruct (Q p (Nd [] (fun _ => f0)) Hp) as [_ V].
  specialize (V i [] [] Hi). cbn [app] in V. rewrite app_nil_r in V. apply V; constructor.
Qed.
Lemma ind_call l k x0 x1 b0 b1 b g : mk_ind l = Ok k -> points (k_in k) x0 x1 b0 b1 -> broadcast_shapes b0 b1 = Ok b ->
  (forall n c, nth_error l n = Some c -> exists a, k_call c x0 x1 = Ok a /\ cov_array a b [] [] (fun i _ _ => g n i)) ->
  exists a, k_call k x0 x1 = Ok a /\ cov_array a b [length l] [length l] (diag_value g).
Proof.
  intros M H B C. assert (k = KInd l) as ->.
  { unfold mk_ind in M. destruct l; [discriminate|]. now destruct (forallb _ _) in M; inversion M. }
  change (k_call (KInd l) x0 x1) with (bind (check_shapes (k_in (KInd l)) x0 x1) (fun b => bind (bind (mapR (fun c => k_call c x0 x1) l) (fun evals =>
            Ok (Nd (b ++ [length l; length l]) (fun i =>
                  match skipn (length b) i with
                  | [p; q] => if p =? q then nat_ (nth p evals (Nd [] (fun _ => f0))) (firstn (length b) i) else f0
                  | _ => f0
                  end)))) (k_finish (KInd l) b))).
  rewrite (check_ok _ _ _ _ _ _ H B). cbn [bind]. destruct (ind_any k_call l x0 x1 b g C) as [a [-> S]]. cbn [bind]. exists a.
  split; [|exact S]. now apply (finish_ok (KInd l) b a _ S).
Qed.
Lemma ind_jax l k x0 x1 b0 b1 b g : mk_ind l = Ok k -> points (k_in k) x0 x1 b0 b1 -> broadcast_shapes b0 b1 = Ok b ->
  (forall n c, nth_error l n = Some c -> exists a, k_jax c x0 x1 = Ok a /\ cov_array a b [] [] (fun i _ _ => g n i)) ->
  exists a, k_jax k x0 x1 = Ok a /\ cov_array a b [length l] [length l] (diag_value g).
Proof.
  intros M H B C. assert (k = KInd l) as ->.
  { unfold mk_ind in M. destruct l; [discriminate|]. now destruct (forallb _ _) in M; inversion M. }
  change (k_jax (KInd l) x0 x1) with (bind (check_shapes (k_in (KInd l)) x0 x1) (fun b => bind (bind (mapR (fun c => k_jax c x0 x1) l) (fun evals =>
            Ok (Nd (b ++ [length l; length l]) (fun i =>
                  match skipn (length b) i with
                  | [p; q] => if p =? q then nat_ (nth p evals (Nd [] (fun _ => f0))) (firstn (length b) i) else f0
                  | _ => f0
                  end)))) (k_finish (KInd l) b))).
  rewrite (check_ok _ _ _ _ _ _ H B). cbn [bind]. destruct (ind_any k_jax l x0 x1 b g C) as [a [-> S]]. cbn [bind]. exists a.
  split; [|exact S]. now apply (finish_ok (KInd l) b a _ S).
Qed.

(** ** Stacks *)
Lemma fill_last_ok sh b (evals : list (nd F)) (g : nat -> index -> F) : evals <> [] -> length evals = size sh ->
  (forall n d, n < length evals -> nshape (nth n evals d) = b /\ forall i, valid_index b i -> nat_ (nth n evals d) i = g n i) ->
  exists a, fill_last sh evals = Ok a /\ nshape a = b ++ sh /\
    forall i q, valid_index b i -> valid_index sh q -> nat_ a (i ++ q) = g (ravel sh q) i.
Proof.
  intros N L H. destruct evals as [|e r]; [congruence|]. unfold fill_last.
  assert (Ee : nshape e = b) by (apply (H 0 e); cbn; lia).
  assert (A : forallb (fun a => shape_eqb (nshape a) (nshape e)) (e :: r) = true).
  { apply forallb_forall. intros a Ha. apply (In_nth _ _ e) in Ha as [n [Hn En]]. destruct (H n e Hn) as [E _]. rewrite <- En, E, Ee. apply shape_eqb_refl. }
  rewrite A. eexists. split; [reflexivity|]. cbn [nshape nat_]. rewrite Ee. split; [reflexivity|].
  intros i q Hi Hq. pose proof (valid_index_length _ _ Hi) as Li. rewrite skipn_app_l, firstn_app_l by assumption.
  apply H; [|exact Hi]. pose proof (ravel_lt _ _ Hq). rewrite L. lia.
Qed.
Lemma stack_is sh l idx k : mk_stack sh l idx = Ok k -> k = KStack sh l idx /\ l <> [] /\ (idx = 0 \/ idx = 1) /\
  Forall (fun c => k_in c = k_in k /\ k_out0 c = [] /\ k_out1 c = []) l.
Proof.
  unfold mk_stack. destruct l as [|c l]; [discriminate|]. destruct (forallb (fun k0 => shape_eqb (k_in k0) (k_in c)) (c :: l)) eqn:E1; [|discriminate].
  destruct (forallb (fun k0 => shape_eqb (k_out0 k0) [] && shape_eqb (k_out1 k0) []) (c :: l)) eqn:E2; [|discriminate].
  destruct ((idx =? 0) || (idx =? 1)) eqn:E3; [|discriminate]. cbn [negb]. intros [= <-]. repeat split; [discriminate| |].
  - apply orb_prop in E3 as [E3|E3]; apply Nat.eqb_eq in E3; tauto.
  - rewrite forallb_forall in E1, E2. apply Forall_forall. intros d Hd. cbn [k_in].
    specialize (E1 d Hd). specialize (E2 d Hd). apply andb_prop in E2 as [E2 E2'].
    destruct (shape_eqb_spec (k_in d) (k_in c)), (shape_eqb_spec (k_out0 d) []), (shape_eqb_spec (k_out1 d) []); try discriminate. auto.
Qed.
(** Value of a stack: the component selected by the stacked output. *)
Definition stack_value sh (idx : nat) (g : nat -> index -> F) : index -> index -> index -> F :=
  fun i o q => g (ravel sh (if idx =? 0 then o else q)) i.
Lemma stack_call sh l idx k x0 x1 b0 b1 b g : mk_stack sh l idx = Ok k -> length l = size sh ->
  points (k_in k) x0 x1 b0 b1 -> broadcast_shapes b0 b1 = Ok b ->
  (forall n c, nth_error l n = Some c -> exists a, k_call c x0 x1 = Ok a /\ cov_array a b [] [] (fun i _ _ => g n i)) ->
  exists a, k_call k x0 x1 = Ok a /\ cov_array a b (k_out0 k) (k_out1 k) (stack_value sh idx g).
Proof.
  intros M L H B C. destruct (stack_is _ _ _ _ M) as [-> [N [I _]]].
  change (k_call (KStack sh l idx) x0 x1) with (bind (check_shapes (k_in (KStack sh l idx)) x0 x1) (fun b =>
    bind (bind (mapR (fun c => k_call c x0 x1) l) (fill_last sh)) (k_finish (KStack sh l idx) b))).
  rewrite (check_ok _ _ _ _ _ _ H B). cbn [bind]. destruct (mapR_nth _ _ _ C) as [ys [-> [Ly Q]]]. cbn [bind].
  destruct (fill_last_ok sh b ys g) as [a [-> [Sa Va]]].
  - intros ->. now destruct l.
  - congruence.
  - intros n d Hn. rewrite Ly in Hn. destruct (Q n d Hn) as [E V]. split; [now rewrite E, app_nil_r|].
    intros i Hi. specialize (V i [] [] Hi). rewrite app_nil_r in V. apply V; constructor.
  - cbn [bind]. assert (CA : cov_array a b (k_out0 (KStack sh l idx)) (k_out1 (KStack sh l idx)) (stack_value sh idx g)).
    { cbn [k_out0 k_out1]. unfold stack_value. destruct I as [->| ->]; cbn [Nat.eqb]; (split; [now rewrite ?app_nil_r|]); intros i o q Hi Ho Hq.
      - apply valid_index_nil in Hq as ->. rewrite app_nil_r. now apply Va.
      - apply valid_index_nil in Ho as ->. now apply Va. }
    exists a. split; [|exact CA]. now apply (finish_ok (KStack sh l idx) b a _ CA).
Qed.
Lemma stack_jax sh l idx k x0 x1 b0 b1 b g : mk_stack sh l idx = Ok k -> length l = size sh ->
  points (k_in k) x0 x1 b0 b1 -> broadcast_shapes b0 b1 = Ok b ->
  (forall n c, nth_error l n = Some c -> exists a, k_jax c x0 x1 = Ok a /\ cov_array a b [] [] (fun i _ _ => g n i)) ->
  exists a, k_jax k x0 x1 = Ok a /\ cov_array a b (k_out0 k) (k_out1 k) (fun _ _ _ => f0).
Proof.
  intros M L H B C. destruct (stack_is _ _ _ _ M) as [-> [N [I _]]].
  change (k_jax (KStack sh l idx) x0 x1) with (bind (check_shapes (k_in (KStack sh l idx)) x0 x1) (fun b =>
    bind (bind (mapR (fun c => k_jax c x0 x1) l) (fun evals =>
            match evals with
            | [] => Err TypeError
            | e :: _ => Ok (Nd (nshape e ++ sh) (fun _ => f0))
            end)) (k_finish (KStack sh l idx) b))).
  rewrite (check_ok _ _ _ _ _ _ H B). cbn [bind]. destruct (mapR_nth _ _ _ C) as [ys [-> [Ly Q]]]. cbn [bind].
  destruct ys as [|e ys]; [now destruct l|]. destruct (Q 0 e) as [E _]; [rewrite <- Ly; cbn; lia|]. cbn [nth] in E. cbn [bind]. rewrite E, app_nil_r.
  assert (CA : cov_array (Nd (b ++ sh) (fun _ : index => @f0 F)) b (k_out0 (KStack sh l idx)) (k_out1 (KStack sh l idx)) (fun _ _ _ => f0)).
  { split; [|reflexivity]. cbn [k_out0 k_out1 nshape]. destruct I as [->| ->]; cbn [Nat.eqb]; now rewrite ?app_nil_r. }
  eexists. split; [|exact CA]. now apply (finish_ok (KStack sh l idx) b _ _ CA).
Qed.

(** ** Operators *)
Lemma block_diag_entry (ms : list (mat F)) R C : Forall (fun m => nrows m = R /\ ncols m = C) ms ->
  nrows (block_diag ms) = length ms * R /\ ncols (block_diag ms) = length ms * C /\
  forall p q r c d, p < length ms -> q < length ms -> r < R -> c < C ->
    entry (block_diag ms) (p * R + r) (q * C + c) = if p =? q then entry (nth p ms d) r c else f0.
Proof.
  induction 1 as [|m ms [ER EC] H [IR [IC IE]]]; [repeat split; intros; cbn in *; lia|].
  cbn [block_diag nrows ncols length]. rewrite ER, EC, IR, IC. split; [lia|]. split; [lia|].
  intros p q r c d Hp Hq Hr Hc. cbn [entry]. rewrite ?ER, ?EC.
  destruct p as [|p], q as [|q]; cbn [Nat.mul Nat.add nth Nat.eqb].
  - destruct (Nat.ltb_spec r R), (Nat.ltb_spec c C); try lia. reflexivity.
  - destruct (Nat.ltb_spec r R), (Nat.ltb_spec (C + q * C + c) C); try lia. reflexivity.
  - destruct (Nat.ltb_spec (R + p * R + r) R), (Nat.ltb_spec c C); try lia. reflexivity.
  - destruct (Nat.ltb_spec (R + p * R + r) R), (Nat.ltb_spec (C + q * C + c) C); try lia.
    replace (R + p * R + r - R) with (p * R + r) by lia. replace (C + q * C + c - C) with (q * C + c) by lia.
    apply IE; lia.
Qed.
Lemma ind_linop l k x0 x1 b0 b1 g : mk_ind l = Ok k ->
  (forall n c, nth_error l n = Some c -> exists m, k_linop c x0 x1 = Ok m /\ cov_matrix m b0 b1 [] [] (fun i j _ _ => g n i j)) ->
  exists m, k_linop k x0 x1 = Ok m /\
    cov_matrix m b0 b1 [length l] [length l] (fun i j o q => if nth 0 o 0 =? nth 0 q 0 then g (nth 0 o 0) i j else f0).
Proof.
  intros M C. assert (k = KInd l) as ->.
  { unfold mk_ind in M. destruct l; [discriminate|]. now destruct (forallb _ _) in M; inversion M. }
  change (k_linop (KInd l) x0 x1) with (bind (mapR (fun c => k_linop c x0 x1) l) (fun ms => Ok (block_diag ms))).
  destruct (mapR_nth _ _ _ C) as [ms [-> [L Q]]]. cbn [bind]. eexists. split; [reflexivity|].
  destruct (block_diag_entry ms (size b0) (size b1)) as [ER [EC EE]].
  { apply Forall_forall. intros m Hm. apply (In_nth _ _ m) in Hm as [n [Hn En]]. rewrite L in Hn. destruct (Q n m Hn) as [E0 [E1 _]]. now rewrite <- En. }
  unfold cov_matrix. rewrite ER, EC, L, !size_app. cbn [size fold_right]. split; [fold (size b0); lia|]. split; [fold (size b1); lia|].
  intros i j o q Hi Hj Ho Hq.
  inversion Ho as [|p ? o' ? Hp Ho']; subst. inversion Ho'; subst. inversion Hq as [|r ? q' ? Hr Hq']; subst. inversion Hq'; subst.
  rewrite !ravel_app by (assumption || now constructor). cbn [ravel size fold_right nth].
  replace (p * 1 + 0) with p by lia. replace (r * 1 + 0) with r by lia.
  rewrite (EE p r _ _ (zero_mat 0 0)) by (try apply ravel_lt; try congruence; assumption).
  destruct (p =? r); [|reflexivity]. destruct (Q p (zero_mat 0 0) Hp) as [_ [_ V]].
  specialize (V i j [] [] Hi Hj). cbn [app] in V. apply V; constructor.
Qed.
Lemma offset_repeat n w i : i <= n -> offset (repeat w n) i = i * w.
Proof.
  revert i. induction n as [|n IH]; intros i Hi.
  - replace i with 0 by lia. reflexivity.
  - destruct i as [|i]; [reflexivity|]. cbn [repeat]. rewrite offset_S, IH by lia. lia.
Qed.
Lemma total_repeat n w : total (repeat w n) = n * w.
Proof. induction n as [|n IH]; [reflexivity|]. cbn [repeat]. rewrite total_cons, IH. lia. Qed.
Lemma nth_error_repeat_lt {A} (a : A) n i : i < n -> nth_error (repeat a n) i = Some a.
Proof. revert i. induction n as [|n IH]; intros i Hi; [lia|]. destruct i; [reflexivity|]. cbn. apply IH. lia. Qed.
Lemma block_row (ms : list (mat F)) R C : ms <> [] -> Forall (fun m => nrows m = R /\ ncols m = C) ms ->
  exists M, block_linop [ms] = Ok M /\ nrows M = R /\ ncols M = length ms * C /\
    forall q r c d, q < length ms -> r < R -> c < C -> entry M r (q * C + c) = entry (nth q ms d) r c.
Proof.
  intros N H. rewrite Forall_forall in H.
  assert (LY : layout [ms] [R] (repeat C (length ms))).
  { split; [discriminate|]. split; [destruct ms; [congruence|discriminate]|]. split; [reflexivity|].
    intros i row E. destruct i as [|[|i]]; try discriminate. injection E as <-. split; [now rewrite repeat_length|].
    intros j b E. destruct (H b (nth_error_In _ _ E)) as [-> ->]. split; [reflexivity|].
    apply nth_error_repeat_lt. apply nth_error_Some. congruence. }
  destruct (proj1 (C15_block_accepts [ms]) (mkbm [ms] (total [R]) (total (repeat C (length ms))) (split_indices (repeat C (length ms))))) as [_ A].
  specialize (A (ex_intro _ _ (ex_intro _ _ (conj LY eq_refl)))).
  destruct (C15_block_todense [ms] _ _ _ LY A) as [M [EM [DR [DC DE]]]].
  exists M. unfold block_linop. rewrite A. cbn [bind]. split; [exact EM|]. split; [rewrite DR; cbn; lia|]. split; [now rewrite DC, total_repeat|].
  intros q r c d Hq Hr Hc. destruct (nth_error ms q) as [m|] eqn:E; [|apply nth_error_None in E; lia].
  destruct (H m (nth_error_In _ _ E)) as [E0 E1]. rewrite (nth_error_nth _ _ d E).
  specialize (DE 0 q ms m eq_refl E r c). rewrite offset_0, offset_repeat in DE by lia. apply DE; congruence.
Qed.
Lemma block_col (ms : list (mat F)) R C : ms <> [] -> Forall (fun m => nrows m = R /\ ncols m = C) ms ->
  exists M, block_linop (map (fun m => [m]) ms) = Ok M /\ nrows M = length ms * R /\ ncols M = C /\
    forall q r c d, q < length ms -> r < R -> c < C -> entry M (q * R + r) c = entry (nth q ms d) r c.
Proof.
  intros N H. rewrite Forall_forall in H.
  assert (LY : layout (map (fun m => [m]) ms) (repeat R (length ms)) [C]).
  { split; [destruct ms; [congruence|discriminate]|]. split; [discriminate|]. split; [now rewrite map_length, repeat_length|].
    intros i row E. rewrite nth_error_map in E. destruct (nth_error ms i) as [m|] eqn:Em; [|discriminate]. injection E as <-. split; [reflexivity|].
    intros [|[|j]] b E; try discriminate. injection E as <-. destruct (H m (nth_error_In _ _ Em)) as [-> ->]. split; [|reflexivity].
    apply nth_error_repeat_lt. apply nth_error_Some. congruence. }
  set (bl := map (fun m => [m]) ms) in *.
  destruct (proj1 (C15_block_accepts bl) (mkbm bl (total (repeat R (length ms))) (total [C]) (split_indices [C]))) as [_ A].
  specialize (A (ex_intro _ _ (ex_intro _ _ (conj LY eq_refl)))).
  destruct (C15_block_todense bl _ _ _ LY A) as [M [EM [DR [DC DE]]]].
  exists M. unfold block_linop. rewrite A. cbn [bind]. split; [exact EM|]. split; [now rewrite DR, total_repeat|]. split; [rewrite DC; cbn; lia|].
  intros q r c d Hq Hr Hc. destruct (nth_error ms q) as [m|] eqn:E; [|apply nth_error_None in E; lia].
  destruct (H m (nth_error_In _ _ E)) as [E0 E1]. rewrite (nth_error_nth _ _ d E).
  specialize (DE q 0 [m] m). rewrite offset_0, offset_repeat in DE by lia. apply DE; [|reflexivity|congruence|congruence].
  unfold bl. now rewrite nth_error_map, E.
Qed.
Lemma stack_linop sh l idx k x0 x1 b0 b1 g : mk_stack sh l idx = Ok k -> length l = size sh ->
  (forall n c, nth_error l n = Some c -> exists m, k_linop c x0 x1 = Ok m /\ cov_matrix m b0 b1 [] [] (fun i j _ _ => g n i j)) ->
  exists m, k_linop k x0 x1 = Ok m /\
    cov_matrix m b0 b1 (k_out0 k) (k_out1 k) (fun i j o q => g (ravel sh (if idx =? 0 then o else q)) i j).
Proof.
  intros M Ls C. destruct (stack_is _ _ _ _ M) as [-> [N [I _]]].
  change (k_linop (KStack sh l idx) x0 x1) with (bind (mapR (fun c => k_linop c x0 x1) l) (fun ms =>
      block_linop (if idx =? 0 then map (fun m => [m]) ms else [ms]))).
  destruct (mapR_nth _ _ _ C) as [ms [-> [L Q]]]. cbn [bind].
  assert (N' : ms <> []) by (intros ->; now destruct l).
  assert (FA : Forall (fun m => nrows m = size b0 /\ ncols m = size b1) ms).
  { apply Forall_forall. intros m Hm. apply (In_nth _ _ m) in Hm as [n [Hn En]]. rewrite L in Hn. destruct (Q n m Hn) as [E0 [E1 _]]. now rewrite <- En. }
  cbn [k_out0 k_out1]. destruct I as [->| ->]; cbn [Nat.eqb].
  - destruct (block_col ms _ _ N' FA) as [m [-> [ER [EC EE]]]]. exists m. split; [reflexivity|]. unfold cov_matrix.
    cbn [app]. rewrite ER, EC, L, Ls, size_app. split; [reflexivity|]. split; [reflexivity|]. intros i j o q Hi Hj Ho Hq.
    apply valid_index_nil in Hq as ->. cbn [app]. rewrite ravel_app by assumption. pose proof (ravel_lt _ _ Ho).
    rewrite (EE _ _ _ (zero_mat 0 0)) by (try apply ravel_lt; try lia; assumption).
    destruct (Q (ravel sh o) (zero_mat 0 0)) as [_ [_ V]]; [lia|]. apply (V i j [] []); auto; constructor.
  - destruct (block_row ms _ _ N' FA) as [m [-> [ER [EC EE]]]]. exists m. split; [reflexivity|]. unfold cov_matrix.
    cbn [app]. rewrite ER, EC, L, Ls, size_app. split; [reflexivity|]. split; [reflexivity|]. intros i j o q Hi Hj Ho Hq.
    apply valid_index_nil in Ho as ->. cbn [app]. rewrite ravel_app by assumption. pose proof (ravel_lt _ _ Hq).
    rewrite (EE _ _ _ (zero_mat 0 0)) by (try apply ravel_lt; try lia; assumption).
    destruct (Q (ravel sh q) (zero_mat 0 0)) as [_ [_ V]]; [lia|]. apply (V i j [] []); auto; constructor.
Qed.
End P.
