(** C69: piecewise functions under automatic differentiation. *)
From Coq Require Import List Reals Bool Arith Lra Lia FunctionalExtensionality.
From Coquelicot Require Import Coquelicot.
From Verif Require Import Base NdArray PolyModel PolySpec PolyProofs PolyClassModel PolyCalc FunExprModel DiffopModel LfoModel LfoSmooth KernelModel
  PiecewiseModel PiecewiseSpec PiecewiseProofs PiecewiseProps AdModel AdSpec AdProofs AdKernels AdProps AdCovProofs PwJaxModel.
Import ListNotations.
Open Scope R_scope.

Definition jaxable (f : pw) : Prop := forall g, In g (pw_fns f) -> match g with PcFun _ => False | _ => True end.
Definition valid_pw (f : pw) : Prop := S (length (pw_fns f)) = length (pw_xs f) /\ increasing (pw_xs f) /\ jaxable f.

Lemma pick_none : forall conds ps, (forall c, In c conds -> c = false) -> jnp_piecewise conds ps = PCst 0.
Proof.
  unfold jnp_piecewise. intros conds ps H. assert (G : forall l acc, (forall cb : bool * prog, In cb l -> fst cb = false) -> fold_left (fun acc cb => if fst cb : bool then snd cb else acc) l acc = acc).
  { induction l as [|cb l IH]; intros acc G; [reflexivity|]. cbn [fold_left]. rewrite (G cb) by now left. apply IH. intros; apply G; now right. }
  apply G. intros [c b] Hc. apply in_combine_l in Hc. now apply H.
Qed.
Lemma pick_one conds ps i : (i < length conds)%nat -> length conds = length ps -> (forall j, (j < length conds)%nat -> nth j conds false = (j =? i)%nat) -> jnp_piecewise conds ps = nth i ps (PCst 0).
Proof.
  unfold jnp_piecewise. generalize (PCst 0) at 1 as acc. intros acc Hi Hl H.
  assert (N : forall cs qs acc, length cs = length qs -> (forall j, (j < length cs)%nat -> nth j cs false = false) -> fold_left (fun acc cb => if fst cb : bool then snd cb else acc) (combine cs qs) acc = (acc : prog)).
  { induction cs as [|c cs IH]; intros [|q qs] a E G; try discriminate; [reflexivity|]. cbn [combine fold_left fst snd]. pose proof (G 0%nat ltac:(cbn; lia)) as G0. cbn in G0. subst c. apply IH; [now injection E|]. intros j Hj. apply (G (S j)). cbn. lia. }
  revert ps acc i Hi Hl H. induction conds as [|c cs IH]; intros [|q qs] acc i Hi Hl H; cbn in Hi; try lia; try discriminate. cbn [combine fold_left fst snd]. pose proof (H 0%nat ltac:(cbn; lia)) as H0. cbn in H0.
  destruct i as [|i]; cbn in H0; subst c.
  - cbn [nth]. apply N; [now injection Hl|]. intros j Hj. apply (H (S j)). cbn. lia.
  - cbn [nth]. apply IH; [lia|now injection Hl|]. intros j Hj. apply (H (S j)). cbn. lia.
Qed.
Lemma progs_ok gs : (forall g, In g gs -> match g with PcFun _ => False | _ => True end) -> exists ps, piece_progs gs = Ok ps /\ length ps = length gs /\
  forall i d, (i < length gs)%nat -> forall e, reg e (nth i ps (PCst 0)) /\ pval e (nth i ps (PCst 0)) = piece_eval (nth i gs d) (fst e []).
Proof.
  induction gs as [|g gs IH]; intros H; [exists []; cbn; repeat split; intros; lia|]. destruct IH as (ps & E & L & V); [intros; apply H; now right|].
  specialize (H g (or_introl eq_refl)). cbn [piece_progs]. rewrite E. destruct g as [p|c|h]; [| |contradiction]; cbn [piece_prog bind]; eexists; (split; [reflexivity|]); (split; [cbn; now rewrite L|]); intros [|i] d Hi e; cbn [nth]; try (apply V; cbn in Hi; lia).
  - split; [apply horner_reg; exact I|]. exact (horner_val e _ _).
  - split; [exact I|reflexivity].
Qed.
Lemma conds_inside f i x : valid_pw f -> (i < length (pw_fns f))%nat -> (match pw_kind f with KConstant => nth i (pw_xs f) 0 < x <= nth (S i) (pw_xs f) 0 | _ => in_cell (pw_xs f) i x end) ->
  exists ps, piece_progs (pw_fns f) = Ok ps /\ pw_branch f x = Ok (nth i ps (PCst 0)).
Proof.
  intros (Hv & Hinc & J) Hi Hc. destruct (progs_ok (pw_fns f) J) as (ps & E & L & _). exists ps. split; [exact E|]. unfold pw_branch. rewrite E. cbn [bind].
  set (n := length (pw_fns f)) in *. assert (NZ : (n =? 0)%nat = false) by (apply Nat.eqb_neq; lia). rewrite NZ.
  assert (HS : forall j, (j < n)%nat -> jax_cell (pw_xs f) x j = true <-> nth j (pw_xs f) 0 < x <= nth (S j) (pw_xs f) 0).
  { intros j Hj. unfold jax_cell. destruct (Rltb_spec (nth j (pw_xs f) 0) x), (Rleb_spec x (nth (S j) (pw_xs f) 0)); cbn [andb]; split; intros; try lra; try discriminate; reflexivity. }
  assert (U : forall j, (j < n)%nat -> in_cell (pw_xs f) i x -> in_cell (pw_xs f) j x -> j = i) by (intros j Hj A B; apply (in_cell_unique (pw_xs f) j i x); auto; lia).
  assert (C : forall b : nat -> bool, (forall j, (j < n)%nat -> b j = true <-> j = i) -> forall j, (j < n)%nat -> b j = (j =? i)%nat).
  { intros b B j Hj. destruct (Nat.eqb_spec j i) as [->|N]; [now apply B|]. apply not_true_iff_false. intros T. now apply N, B. }
  assert (NM : forall k m j, (j < m)%nat -> nth j (map (jax_cell (pw_xs f) x) (seq k m)) false = jax_cell (pw_xs f) x (k + j)).
  { intros k m j Hj. rewrite (nth_indep _ _ (jax_cell (pw_xs f) x 0)) by (rewrite map_length, seq_length; exact Hj). rewrite map_nth, seq_nth by exact Hj. reflexivity. }
  assert (IC : forall j, nth j (pw_xs f) 0 < x <= nth (S j) (pw_xs f) 0 -> in_cell (pw_xs f) j x) by (intros [|j] H; cbn; lra).
  assert (G : forall A : bool, (A = true <-> nth 0 (pw_xs f) 0 <= x <= nth 1 (pw_xs f) 0) -> in_cell (pw_xs f) i x -> Ok (jnp_piecewise (A :: map (jax_cell (pw_xs f) x) (seq 1 (n - 1))) ps) = Ok (nth i ps (PCst 0))).
  { intros A HA Hc'. f_equal. apply pick_one; [cbn; rewrite map_length, seq_length; lia|cbn; rewrite map_length, seq_length; lia|]. cbn [length]. rewrite map_length, seq_length. intros j Hj.
    assert (Hj' : (j < n)%nat) by lia. revert j Hj' Hj. intros j Hj' _. apply (C (fun j => nth j (A :: map (jax_cell (pw_xs f) x) (seq 1 (n - 1))) false)); [|exact Hj']. clear j Hj'. intros j Hj.
    destruct j as [|j]; cbn [nth].
    - split; [intros T; apply (U 0%nat Hj Hc'); now apply HA|]. intros <-. apply HA. exact Hc'.
    - rewrite NM by lia. cbn [Nat.add]. rewrite HS by lia. split; [intros T; apply (U (S j) Hj Hc'); exact T|]. intros <-. exact Hc'. }
  assert (HA : (Rleb (nth 0 (pw_xs f) 0) x && Rleb x (nth 1 (pw_xs f) 0))%bool = true <-> nth 0 (pw_xs f) 0 <= x <= nth 1 (pw_xs f) 0).
  { destruct (Rleb_spec (nth 0 (pw_xs f) 0) x), (Rleb_spec x (nth 1 (pw_xs f) 0)); cbn [andb]; split; intros; try lra; try discriminate; reflexivity. }
  destruct (pw_kind f).
  - now apply G.
  - now apply G.
  - f_equal. apply pick_one; [rewrite map_length, seq_length; lia|rewrite map_length, seq_length; lia|]. rewrite map_length, seq_length. intros j Hj. rewrite NM by exact Hj. cbn [Nat.add]. revert j Hj. apply C.
    intros j Hj. rewrite HS by exact Hj. split; [intros T; apply U; auto|]. intros ->. exact Hc.
Qed.

(** The branch taken is regular and has the value of the piece. *)
Lemma branch_inside f i x d : valid_pw f -> (i < length (pw_fns f))%nat -> (match pw_kind f with KConstant => nth i (pw_xs f) 0 < x <= nth (S i) (pw_xs f) 0 | _ => in_cell (pw_xs f) i x end) ->
  exists p, pw_branch f x = Ok p /\ forall e, reg e p /\ pval e p = piece_eval (nth i (pw_fns f) d) (fst e []).
Proof.
  intros V Hi Hc. destruct (conds_inside f i x V Hi Hc) as (ps & E & B). eexists. split; [exact B|]. destruct (progs_ok (pw_fns f) (proj2 (proj2 V))) as (ps' & E' & _ & W). rewrite E in E'. injection E' as <-. intros e. now apply W.
Qed.
(** Between two knots (of a cell that contains its right end): all derivatives are those of the piece. *)
Theorem C69_cell : forall f i (e : points) ds d, valid_pw f -> (i < length (pw_fns f))%nat ->
  (match pw_kind f with KConstant => nth i (pw_xs f) 0 < fst e [] <= nth (S i) (pw_xs f) 0 | _ => in_cell (pw_xs f) i (fst e []) end) ->
  exists p, pw_branch f (fst e []) = Ok p /\
  run e (iterate p ds) = Fin (derivs ds (fun e => piece_eval (nth i (pw_fns f) d) (fst e [])) e).
Proof.
  intros f i e ds d V Hi Hc. destruct (branch_inside f i _ d V Hi Hc) as (p & E & W). exists p. split; [exact E|].
  destruct (regular_ok p ds e (proj1 (W e))) as [R _]. rewrite R. f_equal. apply (derivs_ext (fun _ => True)); [intros; now apply filter_forall|intros e' _; apply W|exact I].
Qed.
Print Assumptions C69_cell.
Lemma value_inside f i x d : valid_pw f -> (i < length (pw_fns f))%nat -> (forall g, pw_kind f = KConstant -> In g (pw_fns f) -> exists c, g = PcConst c) -> nth i (pw_xs f) 0 < x <= nth (S i) (pw_xs f) 0 ->
  pw_value f x = piece_eval (nth i (pw_fns f) d) x.
Proof.
  intros (Hv & Hinc & J) Hi K Hx. assert (IC : in_cell (pw_xs f) i x) by (destruct i; cbn; lra). unfold pw_value. destruct (pw_kind f) eqn:Ek.
  - rewrite (C05_value_in_cell f i x d); auto. congruence.
  - rewrite (C05_value_in_cell f i x d); auto. congruence.
  - set (ys := map (fun g => piece_eval g 0) (pw_fns f)). assert (M : map PcConst ys = pw_fns f).
    { unfold ys. rewrite map_map. rewrite <- (map_id (pw_fns f)) at 2. apply map_ext_in. intros g Hg. destruct (K g eq_refl Hg) as [c ->]. reflexivity. }
    assert (P : piecewise_constant (pw_xs f) ys = Ok f). { unfold piecewise_constant. rewrite M, (piecewise_init_ok _ _ _ Hv). destruct f; cbn in *. now rewrite Ek. }
    rewrite (C05_constant_value (pw_xs f) ys i x f P Hinc); [|unfold ys; now rewrite map_length|exact Hx].
    unfold ys. rewrite (nth_indep _ _ (piece_eval d 0)) by (now rewrite map_length). rewrite (map_nth (fun g => piece_eval g 0)).
    destruct (K (nth i (pw_fns f) d) eq_refl (nth_In _ _ Hi)) as [c ->]. reflexivity.
Qed.
(** Strictly between two knots: the derivatives of the piecewise function, which exist. *)
Definition pw_wf (f : pw) : Prop := valid_pw f /\ forall g, pw_kind f = KConstant -> In g (pw_fns f) -> exists c, g = PcConst c.
Theorem C69_interior : forall f i (e : points) ds, pw_wf f -> (i < length (pw_fns f))%nat -> nth i (pw_xs f) 0 < fst e [] < nth (S i) (pw_xs f) 0 ->
  exists p, pw_branch f (fst e []) = Ok p /\
  run e (iterate p ds) = Fin (derivs ds (fun e => pw_value f (fst e [])) e) /\
  differentiable ds (fun e => pw_value f (fst e [])) e.
Proof.
  intros f i e ds [V K] Hi Hx. destruct (branch_inside f i (fst e []) (PcConst 0) V Hi) as (p & E & W).
  { destruct (pw_kind f); try lra; destruct i; cbn; lra. }
  exists p. split; [exact E|]. set (X := fun e : points => nth i (pw_xs f) 0 < fst e [] < nth (S i) (pw_xs f) 0).
  assert (O : forall e b v, X e -> locally 0 (fun t => X (move e b t v))).
  { intros e' b v He. unfold X. destruct b; cbn [move fst].
    - apply filter_forall. intros _. exact He.
    - assert (Cn : continuous (fun t : R => fst e' [] + t * v []) 0).
      { apply (ex_derive_continuous (fun t : R => fst e' [] + t * v [])). eexists. auto_derive; [exact I|reflexivity]. }
      assert (P : locally (fst e' [] + 0 * v []) (fun y => nth i (pw_xs f) 0 < y < nth (S i) (pw_xs f) 0)).
      { apply (locally_open (fun y => nth i (pw_xs f) 0 < y < nth (S i) (pw_xs f) 0)); [|auto|rewrite Rmult_0_l, Rplus_0_r; exact He].
        apply (open_and (fun y => nth i (pw_xs f) 0 < y) (fun y => y < nth (S i) (pw_xs f) 0)); [apply open_gt|apply open_lt]. }
      exact (Cn _ P). }
  assert (Q : forall e', X e' -> pval e' p = pw_value f (fst e' [])).
  { intros e' He. rewrite (proj2 (W e')). symmetry. apply value_inside; auto. unfold X in He. lra. }
  destruct (regular_ok p ds e (proj1 (W e))) as [R D]. split.
  - rewrite R. f_equal. apply (derivs_ext X O); [exact Q|exact Hx].
  - intros ds1 b v ds2 Eds. specialize (D ds1 b v ds2 Eds). revert D. apply ex_derive_ext_loc. generalize (O e b v Hx). apply filter_imp. intros t Ht. now apply (derivs_ext X O).
Qed.
Print Assumptions C69_interior.
(** Outside the knots: zero. *)
Theorem C69_outside : forall f (e : points) ds, valid_pw f -> pw_fns f <> [] -> (fst e [] < nth 0 (pw_xs f) 0 \/ nth (length (pw_fns f)) (pw_xs f) 0 < fst e []) ->
  exists p, pw_branch f (fst e []) = Ok p /\ run e (iterate p ds) = Fin 0.
Proof.
  intros f e ds (Hv & Hinc & J) NE Hx. set (x := fst e []) in *. destruct (progs_ok (pw_fns f) J) as (ps & E & _ & _). exists (PCst 0). split.
  - unfold pw_branch. rewrite E. cbn [bind]. assert (NZ : (length (pw_fns f) =? 0)%nat = false) by (apply Nat.eqb_neq; destruct (pw_fns f); cbn; congruence). rewrite NZ.
    set (n := length (pw_fns f)) in *. assert (NP : (0 < n)%nat) by (apply Nat.eqb_neq in NZ; lia).
    assert (LE : forall j k, (j <= k <= n)%nat -> nth j (pw_xs f) 0 <= nth k (pw_xs f) 0) by (intros j k H; apply increasing_le; [assumption|lia]).
    assert (F : forall j, (j < n)%nat -> jax_cell (pw_xs f) x j = false).
    { intros j Hj. unfold jax_cell. pose proof (LE 0%nat j ltac:(lia)). pose proof (LE (S j) n ltac:(lia)). destruct (Rltb_spec (nth j (pw_xs f) 0) x), (Rleb_spec x (nth (S j) (pw_xs f) 0)); try reflexivity. exfalso. destruct Hx; lra. }
    assert (F0 : (Rleb (nth 0 (pw_xs f) 0) x && Rleb x (nth 1 (pw_xs f) 0))%bool = false).
    { pose proof (LE 1%nat n ltac:(lia)). destruct (Rleb_spec (nth 0 (pw_xs f) 0) x), (Rleb_spec x (nth 1 (pw_xs f) 0)); try reflexivity. exfalso. destruct Hx; lra. }
    destruct (pw_kind f); f_equal; apply pick_none; intros c Hc.
    1, 2: destruct Hc as [<-|Hc]; [exact F0|]; apply in_map_iff in Hc as (j & <- & Hj); apply in_seq in Hj; apply F; lia.
    apply in_map_iff in Hc as (j & <- & Hj). apply in_seq in Hj. apply F. lia.
  - destruct (regular_ok (PCst 0) ds e I) as [R _]. rewrite R. f_equal. clear. change (fun e0 : points => pval e0 (PCst 0)) with (fun _ : points => 0). induction ds as [|[b v] ds IH]; [reflexivity|].
    unfold derivs in *. cbn [fold_left]. unfold along at 2. replace (fun e0 : points => Derive (fun t : R => 0) 0) with (fun _ : points => 0); [exact IH|]. extensionality e0. now rewrite Derive_const.
Qed.
Print Assumptions C69_outside.
(** The operators, strictly between two knots. *)
Theorem C69_operator : forall f i d T p q x0 x1, pw_wf f -> (i < length (pw_fns f))%nat -> nth i (pw_xs f) 0 < x0 [] < nth (S i) (pw_xs f) 0 ->
  jax_op d = Ok T -> pw_branch f (x0 []) = Ok p -> ad_op d 0 p = Ok q -> run (x0, x1) q = Fin (T (fun x => pw_value f (x [])) x0).
Proof.
  intros f i d T p q x0 x1 W Hi Hx HT Hp Hq. apply (op_run p (fun x _ => pw_value f (x [])) d 0 q T x0 x1 Hq HT). intros ds _. destruct (C69_interior f i (x0, x1) ds W Hi Hx) as (p' & E & R & _). cbn [fst] in E. rewrite Hp in E. injection E as <-. exact R.
Qed.
Print Assumptions C69_operator.
(** Values, and the errors. *)
Lemma branch_val e conds ps : pval e (jnp_piecewise conds ps) = np_piecewise conds (map (pval e) ps).
Proof.
  unfold jnp_piecewise, np_piecewise. change 0 with (pval e (PCst 0)) at 2. generalize (PCst 0). revert ps. induction conds as [|c conds IH]; intros [|p ps] acc; try reflexivity. cbn [combine map fold_left fst snd]. destruct c; apply IH.
Qed.
Lemma branch_reg e conds ps : (forall p, In p ps -> reg e p) -> reg e (jnp_piecewise conds ps).
Proof.
  unfold jnp_piecewise. assert (G : reg e (PCst 0)) by exact I. revert G. generalize (PCst 0). revert ps. induction conds as [|c conds IH]; intros [|p ps] acc G H; try exact G. cbn [combine fold_left fst snd]. apply IH; [|intros; apply H; now right]. destruct c; [apply H; now left|exact G].
Qed.
Theorem C69_values : forall f x p (e : points), jaxable f -> pw_branch f x = Ok p -> fst e [] = x -> exists v, pw_eval f x = Ok v /\ run e p = Fin v.
Proof.
  intros f x p e J H Ex. destruct (progs_ok (pw_fns f) J) as (ps & E & L & W). unfold pw_branch in H. rewrite E in H. cbn [bind] in H. unfold pw_eval. set (n := length (pw_fns f)) in *.
  assert (R : forall q, In q ps -> reg e q) by (intros q Hq; apply (In_nth _ _ (PCst 0)) in Hq as (k & Hk & <-); apply (W k (PcConst 0)); lia).
  assert (M : map (pval e) ps = map (fun g => piece_eval g x) (pw_fns f)).
  { apply (nth_ext _ _ 0 0); [now rewrite !map_length|]. rewrite map_length. intros k Hk. rewrite (nth_indep _ 0 (pval e (PCst 0))) by (now rewrite map_length). rewrite map_nth, (proj2 (W k (PcConst 0) ltac:(lia) e)), Ex.
    rewrite (nth_indep _ 0 (piece_eval (PcConst 0) x)) by (rewrite map_length; lia). now rewrite (map_nth (fun g => piece_eval g x)). }
  assert (C : forall a m, map (half_open (pw_xs f) x) (seq a m) = map (jax_cell (pw_xs f) x) (seq a m)).
  { intros a m. apply map_ext. intros k. unfold half_open, jax_cell, knot. now rewrite Nat.add_1_r. }
  destruct (n =? 0)%nat; [destruct (pw_kind f); discriminate|]. unfold range, knot. rewrite !C. rewrite Nat.sub_0_r.
  destruct (pw_kind f); injection H as <-; (eexists; split; [reflexivity|]); rewrite run_reg by (now apply branch_reg); now rewrite branch_val, M.
Qed.
Print Assumptions C69_values.
Theorem C69_errors : forall f x, 
  ((exists p, pw_branch f x = Ok p) <-> jaxable f /\ pw_fns f <> []) /\
  (pw_kind f <> KConstant -> pw_fns f = [] -> pw_branch f x = Err IndexError).
Proof.
  assert (P : forall gs ps, piece_progs gs = Ok ps -> forall g, In g gs -> match g with PcFun _ => False | _ => True end).
  { induction gs as [|g gs IH]; intros ps H h Hh; [contradiction|]. cbn [piece_progs] in H. destruct g as [p|c|u]; cbn [piece_prog bind] in H; [| |discriminate]; destruct (piece_progs gs) as [qs|]; try discriminate; destruct Hh as [<-|Hh]; try exact I; now apply (IH qs). }
  intros f x. split; [|intros K E; unfold pw_branch; rewrite E; cbn; destruct (pw_kind f); [reflexivity|reflexivity|congruence]]. unfold pw_branch. split.
  - intros [p H]. destruct (piece_progs (pw_fns f)) as [ps|] eqn:E; [|discriminate]. split; [exact (P _ _ E)|]. intros N. rewrite N in H. cbn in H. destruct (pw_kind f); discriminate.
  - intros [J N]. destruct (progs_ok (pw_fns f) J) as (ps & -> & _). cbn [bind]. assert (NZ : (length (pw_fns f) =? 0)%nat = false) by (apply Nat.eqb_neq; destruct (pw_fns f); cbn; congruence). rewrite NZ. destruct (pw_kind f); eexists; reflexivity.
Qed.
(** Finding: at a kink the derivative does not exist, automatic differentiation returns the slope of the
    piece on the left; at the left end it returns the slope of the first piece although the function
    jumps from zero there. *)
Definition tent : pw := mkpw KLinear [0; 1; 2] [PcPoly (PFloat [1; 1]); PcPoly (PFloat [3; -1])].
Lemma tent_wf : pw_wf tent.
Proof.
  split; [|intros g H; discriminate]. split; [reflexivity|]. split.
  - intros i j Hij. cbn in Hij. destruct i as [|[|[|i]]], j as [|[|[|j]]]; try lia; cbn; lra.
  - intros g [<-|[<-|[]]]; exact I.
Qed.
Lemma tent_piece (a b : R) e v : derivs [(false, fun _ => v)] (fun e => py_eval (PFloat [a; b]) (fst e [])) e = v * b.
Proof.
  cbn [derivs fold_left]. unfold along. cbn [fst snd move]. rewrite (Derive_ext _ (fun t => a + b * (fst e [] + t * v))).
  - apply is_derive_unique. auto_derive; [exact I|ring].
  - intros t. cbn. unfold py_eval. cbn. ring.
Qed.
Theorem C69_kink_refuted : exists f (e : points), pw_wf f /\
  (exists p, pw_branch f (fst e []) = Ok p /\ run e (iterate p [(false, fun _ => 1)]) = Fin 1 /\
  ~ ex_derive (fun t => pw_value f t) (fst e [])).
Proof.
  exists tent, ((fun _ => 1), (fun _ => 0)). split; [exact tent_wf|]. destruct (C69_cell tent 0 ((fun _ => 1), (fun _ => 0)) [(false, fun _ => 1)] (PcConst 0) (proj1 tent_wf)) as (p & E & R); [cbn; lia|cbn; lra|].
  exists p. split; [exact E|]. split; [rewrite R; cbn [pw_fns tent nth piece_eval]; rewrite tent_piece; f_equal; ring|].
  cbn [fst]. intros [l Hl].
  assert (HL : forall t, 0 < t <= 1 -> pw_value tent t = 1 + t).
  { intros t Ht. rewrite (value_inside tent 0 t (PcConst 0) (proj1 tent_wf)); [cbn; unfold py_eval; cbn; ring|cbn; lia|intros g; discriminate|cbn; lra]. }
  assert (HR : forall t, 1 < t <= 2 -> pw_value tent t = 3 - t).
  { intros t Ht. rewrite (value_inside tent 1 t (PcConst 0) (proj1 tent_wf)); [cbn; unfold py_eval; cbn; ring|cbn; lia|intros g; discriminate|cbn; lra]. }
  apply is_derive_Reals in Hl. destruct (Hl (1/2) ltac:(lra)) as [[d Hd] H]. cbn [pos] in H.
  set (h := Rmin (d / 2) (1 / 2)). assert (Hh : 0 < h /\ h < d /\ h <= 1/2) by (unfold h; pose proof (Rmin_l (d/2) (1/2)); pose proof (Rmin_r (d/2) (1/2)); split; [apply Rmin_glb_lt; lra|lra]).
  assert (A := H h ltac:(lra) ltac:(rewrite Rabs_pos_eq; lra)). assert (B := H (- h) ltac:(lra) ltac:(rewrite Rabs_Ropp, Rabs_pos_eq; lra)).
  rewrite (HR (1 + h)), (HL 1) in A by lra. rewrite (HL (1 + - h)), (HL 1) in B by lra.
  replace ((3 - (1 + h) - (1 + 1)) / h - l) with (- 1 - l) in A by (field; lra). replace ((1 + (1 + - h) - (1 + 1)) / - h - l) with (1 - l) in B by (field; lra).
  apply Rabs_def2 in A. apply Rabs_def2 in B. lra.
Qed.
Print Assumptions C69_kink_refuted.
Theorem C69_left_end_refuted : exists f (e : points), pw_wf f /\ pw_value f (fst e []) = 1 /\ (forall t, t < fst e [] -> pw_value f t = 0) /\
  (exists p, pw_branch f (fst e []) = Ok p /\ run e (iterate p [(false, fun _ => 1)]) = Fin 1).
Proof.
  exists tent, ((fun _ => 0), (fun _ => 0)). split; [exact tent_wf|]. cbn [fst]. split; [|split].
  - unfold pw_value. rewrite (C05_value_in_cell tent 0 0 (PcConst 0)); [cbn; unfold py_eval; cbn; ring|reflexivity|apply tent_wf|discriminate|cbn; lia|cbn; lra].
  - intros t Ht. unfold pw_value. rewrite C05_value_outside; [reflexivity|reflexivity|apply tent_wf|discriminate|left; exact Ht].
  - destruct (C69_cell tent 0 ((fun _ => 0), (fun _ => 0)) [(false, fun _ => 1)] (PcConst 0) (proj1 tent_wf)) as (p & E & R); [cbn; lia|cbn; lra|]. exists p. split; [exact E|]. rewrite R. cbn [pw_fns tent nth piece_eval]. rewrite tent_piece. f_equal. ring.
Qed.
(** A concrete interior point. *)
Example C69_example : exists p q, pw_branch tent (3/2) = Ok p /\ ad_op (DPartial (unit_mi [] [] 1)) 0 p = Ok q /\
  run ((fun _ => 3/2), (fun _ => 0)) (iterate p [(false, fun _ => 1)]) = Fin (- 1) /\
  differentiable [(false, fun _ => 1)] (fun e => pw_value tent (fst e [])) ((fun _ => 3/2), (fun _ => 0)).
Proof.
  destruct (C69_interior tent 1 ((fun _ => 3/2), (fun _ => 0)) [(false, fun _ => 1)] tent_wf) as (p & E & R & D); [cbn; lia|cbn; lra|].
  destruct (C69_cell tent 1 ((fun _ => 3/2), (fun _ => 0)) [(false, fun _ => 1)] (PcConst 0) (proj1 tent_wf)) as (p' & E' & R'); [cbn; lia|cbn; lra|].
  exists p. eexists. split; [exact E|]. split; [reflexivity|]. split; [|exact D]. rewrite E in E'. injection E' as <-. rewrite R'. cbn [pw_fns tent nth piece_eval]. rewrite tent_piece. f_equal. ring.
Qed.
