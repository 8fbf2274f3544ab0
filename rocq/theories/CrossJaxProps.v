(** C62: the jax views of cross-covariances and of a conditioned process, and the
    stacked cross-covariances of a conditioned process. *)
From Coq Require Import List Arith Lia Bool Ring Field_theory QArith Qcanon.
From Verif Require Import Base NdArray NdData BlockModel BlockSpec BlockProofs BlockProps CovModel CovSpec CovProofs CrossModel CrossSpec CrossProofs
  CrossKern CrossViews CrossFun CrossProps CrossJaxModel.
Import ListNotations.
Local Open Scope nat_scope.

Section Spec.
Context {F : fops}.
(** The cross-covariances that [p] evaluates, itself included. *)
Inductive part (q : pvcc F) : pvcc F -> Prop :=
  | part_self : part q q
  | part_scaled c p : part q p -> part q (PScaled c p)
  | part_sum p l : In p l -> part q p -> part q (PSum l)
  | part_stack sh p l : In p l -> part q p -> part q (PStack sh l).
(** Classes: linear operators and parametric cross-covariances, stacks, evaluation
    functionals. *)
Definition no_jax (q : pvcc F) : Prop := match q with PLinOp _ _ | PParam _ _ _ _ _ => True | _ => False end.
Definition is_stack (q : pvcc F) : Prop := match q with PStack _ _ => True | _ => False end.
Definition is_evaluation (q : pvcc F) : Prop := match q with PEval _ _ _ => True | _ => False end.
End Spec.

Section P.
Context {F : fops} (LF : flaws F).
Add Ring FRing : (F_R (fl_field _ LF)).
Implicit Types (p q : pvcc F) (x : nd F) (b : shape).
Notation value := (index -> index -> index -> F).

(** Induction over cross-covariances with access to the entries of lists. *)
Section Ind.
Variable Q : pvcc F -> Prop.
Hypothesis H : forall p, (forall q, (match p with PScaled _ r | PLinOp _ r => q = r | PSum l | PStack _ l => In q l | _ => False end) -> Q q) -> Q p.
Fixpoint pvcc_rec' (p : pvcc F) : Q p.
Proof.
  apply H. destruct p as [? ? ? ? ?|? ? ? ?|? ? ?|? ? ? ? ?|c r|l|A r|sh l]; intros q; try (intros []; fail).
  - intros ->. apply pvcc_rec'.
  - induction l as [|a l IH]; [intros []|]. intros [<-|D]; [apply pvcc_rec'|exact (IH D)].
  - intros ->. apply pvcc_rec'.
  - induction l as [|a l IH]; [intros []|]. intros [<-|D]; [apply pvcc_rec'|exact (IH D)].
Qed.
End Ind.

Lemma p_jax_unfold t p x : p_jax t p x =
  bind (batch_shape (p_in p) x) (fun b =>
  bind (match p with
        | PLeaf _ outsh rv rev v =>
            Ok (Nd (p_layout rev b outsh rv) (fun l =>
                  if rev then v (pt x (firstn (length b) (skipn (length rv) l))) (skipn (length b) (skipn (length rv) l)) (firstn (length rv) l)
                  else v (pt x (firstn (length b) l)) (firstn (length outsh) (skipn (length b) l)) (skipn (length outsh) (skipn (length b) l))))
        | PZero _ outsh rv rev => Ok (Nd (p_layout rev b outsh rv) (fun _ => f0))
        | PEval k e rev => eval_jax t k e rev (p_out p) b x
        | PParam _ _ _ _ _ => Err NotImplementedError
        | PScaled c q => bind (p_jax t q x) (fun a => Ok (nd_map (fmul c) a))
        | PSum l => bind (mapR (fun q => p_jax t q x) l) (fun ls =>
            reduce nd_add (match ls with [] => [] | a :: r => nd_map (fadd f0) a :: r end))
        | PLinOp _ _ => Err NotImplementedError
        | PStack sh l => bind (mapR (fun q => p_jax t q x) l) (stack_jax sh (p_rv p) (p_rev p))
        end) (p_finish p b)).
Proof. now destruct p. Qed.
Lemma mapR_ext {A B} (f g : A -> result B) l : (forall a, In a l -> f a = g a) -> mapR f l = mapR g l.
Proof.
  induction l as [|a l IH]; intros E; [reflexivity|]. cbn [mapR]. rewrite (E a (or_introl eq_refl)), IH; [reflexivity|].
  intros c D. apply E. now right.
Qed.
Lemma mapR_oks {A B} (f : A -> result B) l ys : mapR f l = Ok ys -> Forall2 (fun a y => f a = Ok y) l ys.
Proof.
  revert ys. induction l as [|a l IH]; intros ys; cbn [mapR]; [intros [= <-]; constructor|].
  destruct (f a) as [y|] eqn:E; [|discriminate]. cbn [bind]. destruct (mapR f l) as [zs|]; [|discriminate]. cbn [bind]. intros [= <-].
  constructor; auto.
Qed.
Lemma mapR_in {A B} (f : A -> result B) l ys a : mapR f l = Ok ys -> In a l -> exists y, f a = Ok y.
Proof.
  intros E D. apply mapR_oks in E. induction E as [|c y l ys Ec E IH]; [destruct D|]. destruct D as [<-|D]; [now exists y|auto].
Qed.
Lemma mapR_all {A B} (f : A -> result B) l ys : Forall2 (fun a y => f a = Ok y) l ys -> mapR f l = Ok ys.
Proof. induction 1 as [|a y l ys E _ IH]; [reflexivity|]. cbn [mapR]. now rewrite E, IH. Qed.
Lemma eval_concrete k e rev out b x : eval_jax false k e rev out b x = eval_array k e rev out b x.
Proof.
  unfold eval_jax, eval_array, np_asarray. cbn [bind]. destruct rev; destruct (_ : bool) eqn:E; try reflexivity; now rewrite E.
Qed.

(** ** The two views agree on arrays *)
(** Without linear operators, parametric cross-covariances and stacks, [jax] returns (or
    raises) exactly what the call does. *)
Theorem C62_concrete : forall p x, (forall q, part q p -> ~ no_jax q /\ ~ is_stack q) -> p_jax false p x = p_call p x.
Proof.
  intros p x. revert p. apply (pvcc_rec' (fun p => (forall q, part q p -> ~ no_jax q /\ ~ is_stack q) -> p_jax false p x = p_call p x)).
  intros p IH Hp. destruct (Hp p (part_self p)) as [N S]. rewrite p_jax_unfold, p_call_unfold.
  destruct (batch_shape (p_in p) x) as [b|]; [|reflexivity]. cbn [bind].
  destruct p as [? ? ? ? ?|? ? ? ?|k e rev|? ? ? ? ?|c r|l|A r|sh l]; try reflexivity; try (destruct N; exact I); try (destruct S; exact I).
  - now rewrite eval_concrete.
  - rewrite IH; [reflexivity|reflexivity|]. intros q Q. apply Hp. now constructor.
  - rewrite (mapR_ext (fun q => p_jax false q x) (fun q => p_call q x) l); [reflexivity|]. intros a Da. apply IH; [exact Da|].
    intros q Q. apply Hp. now apply part_sum with a.
Qed.
(** A jax transformation can only trace them if no evaluation functional is involved. *)
Theorem C62_traced : forall p x,
  ((forall q, part q p -> ~ no_jax q /\ ~ is_stack q /\ ~ is_evaluation q) -> p_jax true p x = p_call p x) /\
  ((exists q, part q p /\ is_evaluation q) -> forall a, p_jax true p x <> Ok a).
Proof.
  intros p x. split.
  - revert p. apply (pvcc_rec' (fun p => (forall q, part q p -> ~ no_jax q /\ ~ is_stack q /\ ~ is_evaluation q) -> p_jax true p x = p_call p x)).
    intros p IH Hp. destruct (Hp p (part_self p)) as (N & S & E). rewrite p_jax_unfold, p_call_unfold.
    destruct (batch_shape (p_in p) x) as [b|]; [|reflexivity]. cbn [bind].
    destruct p as [? ? ? ? ?|? ? ? ?|k e rev|? ? ? ? ?|c r|l|A r|sh l]; try reflexivity; try (destruct N; exact I); try (destruct S; exact I); try (destruct E; exact I).
    + rewrite IH; [reflexivity|reflexivity|]. intros q Q. apply Hp. now constructor.
    + rewrite (mapR_ext (fun q => p_jax true q x) (fun q => p_call q x) l); [reflexivity|]. intros a Da. apply IH; [exact Da|].
      intros q Q. apply Hp. now apply part_sum with a.
  - intros (q & Q & E). induction Q as [|c p Q IH|p l Hl Q IH|sh p l Hl Q IH]; intros a; rewrite p_jax_unfold.
    + destruct q as [? ? ? ? ?|? ? ? ?|k e rev|? ? ? ? ?|c r|l|A r|sh l]; try destruct E.
      destruct (batch_shape _ x) as [b|]; [|discriminate]. cbn [bind]. unfold eval_jax. cbn [np_asarray bind].
      match goal with |- context[if ?c then _ else _] => now destruct c end.
    + destruct (batch_shape _ x) as [b|]; [|discriminate]. cbn [bind]. destruct (p_jax true p x) as [y|]; [now destruct (IH y)|discriminate].
    + destruct (batch_shape _ x) as [b|]; [|discriminate]. cbn [bind].
      destruct (mapR (fun r => p_jax true r x) l) as [ys|] eqn:D; [|discriminate]. destruct (mapR_in _ _ _ p D Hl) as [y Ey]. now destruct (IH y).
    + destruct (batch_shape _ x) as [b|]; [|discriminate]. cbn [bind].
      destruct (mapR (fun r => p_jax true r x) l) as [ys|] eqn:D; [|discriminate]. destruct (mapR_in _ _ _ p D Hl) as [y Ey]. now destruct (IH y).
Qed.
(** The exception is a TypeError. *)
Theorem C62_traced_error_refuted : forall k e rev x b, nshape x = b ++ k_in k -> ev_dom e = k_in k -> nshape (ev_X e) = ev_batch e ++ ev_dom e ->
  p_jax true (PEval k e rev) x = Err TypeError.
Proof.
  intros k e rev x b E D S. rewrite p_jax_unfold. cbn [p_in]. rewrite (batch_shape_ok _ _ _ E). cbn [bind]. unfold eval_jax. cbn [np_asarray bind].
  rewrite D in S. destruct rev; cbn [p_out].
  - cbn [np_expand nshape]. rewrite S, firstn_app_l, skipn_app_l by reflexivity. now rewrite shape_eqb_refl.
  - cbn [np_expand nshape]. rewrite S, E, firstn_app_l, skipn_app_l by reflexivity. now rewrite !shape_eqb_refl.
Qed.
(** Linear operators and parametric cross-covariances have no jax view, and nothing that
    evaluates one has. *)
Theorem C62_not_implemented : forall t p x,
  (forall b, nshape x = b ++ p_in p -> no_jax p -> p_jax t p x = Err NotImplementedError) /\
  ((exists q, part q p /\ no_jax q) -> forall a, p_jax t p x <> Ok a).
Proof.
  intros t p x. split.
  - intros b E N. rewrite p_jax_unfold, (batch_shape_ok _ _ _ E). now destruct p.
  - intros (q & Q & E). induction Q as [|c p Q IH|p l Hl Q IH|sh p l Hl Q IH]; intros a; rewrite p_jax_unfold;
      (destruct (batch_shape _ x) as [b|]; [|discriminate]); cbn [bind].
    + now destruct q.
    + destruct (p_jax t p x) as [y|]; [now destruct (IH y)|discriminate].
    + destruct (mapR (fun r => p_jax t r x) l) as [ys|] eqn:D; [|discriminate]. destruct (mapR_in _ _ _ p D Hl) as [y Ey]. now destruct (IH y).
    + destruct (mapR (fun r => p_jax t r x) l) as [ys|] eqn:D; [|discriminate]. destruct (mapR_in _ _ _ p D Hl) as [y Ey]. now destruct (IH y).
Qed.

(** ** Stacks *)
Lemma stack_zero sh rv rev (evals : list (nd F)) a : stack_jax sh rv rev evals = Ok a -> forall l, nat_ a l = f0.
Proof.
  unfold stack_jax. destruct evals as [|e evals]; [discriminate|].
  set (z := fun c : nd F => Nd (nshape c) (fun _ : index => @f0 F)).
  assert (Z : forall n l, nat_ (nth n (map z (e :: evals)) (z e)) l = f0) by (intros n l; rewrite (map_nth z); reflexivity).
  unfold stack_array. change (map z (e :: evals)) with (z e :: map z evals). cbv iota beta. change (z e :: map z evals) with (map z (e :: evals)).
  destruct rev.
  - unfold fill_last. change (map z (e :: evals)) with (z e :: map z evals). cbv iota beta. change (z e :: map z evals) with (map z (e :: evals)).
    destruct (forallb _ _); [|discriminate]. intros [= <-] l. cbn [nat_]. apply Z.
  - destruct (forallb _ _); [|discriminate]. unfold np_to_front, np_transpose. destruct (_ && _); [|discriminate]. intros [= <-] l. cbn [nat_]. apply Z.
Qed.
(** Whatever is stacked, the jax view of a stack is zero, while the call shows the entries. *)
Theorem C62_stack_zero : forall t sh l x a, p_jax t (PStack sh l) x = Ok a -> forall i, nat_ a i = f0.
Proof.
  intros t sh l x a. rewrite p_jax_unfold. destruct (batch_shape _ x) as [b|]; [|discriminate]. cbn [bind].
  destruct (mapR _ l) as [ys|]; [|discriminate]. cbn [bind]. destruct (stack_jax _ _ _ ys) as [s|] eqn:E; [|discriminate]. cbn [bind].
  unfold p_finish. destruct (shape_eqb _ _); [|discriminate]. intros [= <-]. exact (stack_zero _ _ _ _ _ E).
Qed.
Theorem C62_stack_refuted : forall t sh l p x b (g : nat -> index -> index -> F), mk_pstack sh l = Ok p -> length l = size sh ->
  (forall n q, nth_error l n = Some q -> pv_shows q x b (fun i _ r => g n i r) /\ p_jax t q x = p_call q x) ->
  (exists a, p_jax t p x = Ok a /\ cross_array a (p_rev p) b sh (p_rv p) (fun _ _ _ => f0)) /\
  (exists a, p_call p x = Ok a /\ cross_array a (p_rev p) b sh (p_rv p) (fun i o r => g (ravel sh o) i r)).
Proof.
  intros t sh l p x b g M L H. destruct (C32_stack sh l p x b g M L ltac:(intros n c E; apply (H n c E))) as [O [E [A _]]].
  rewrite O in A. split; [|exact A]. destruct (pstack_is _ _ _ M) as [-> [N HS]]. rewrite Forall_forall in HS.
  rewrite p_jax_unfold, (batch_shape_ok _ _ _ E). cbn [bind].
  destruct (mapR_nth (fun q => p_jax t q x) (fun n a => cross_array a (p_rev (PStack sh l)) b [] (p_rv (PStack sh l)) (fun i _ r => g n i r)) l) as [ys [-> [Ly Hy]]].
  { intros n q D. destruct (H n q D) as [[_ [[a [Ea Sa]] _]] J]. destruct (HS q (nth_error_In _ _ D)) as [_ [Eo [Er Ev]]]. exists a.
    split; [congruence|]. rewrite Eo, Er, Ev in Sa. exact Sa. }
  cbn [bind]. unfold stack_jax.
  destruct (stack_array_ok sh b (p_rv (PStack sh l)) (p_rev (PStack sh l)) (map (fun a : nd F => Nd (nshape a) (fun _ : index => @f0 F)) ys) (fun _ _ _ => f0)) as [a [-> Sa]].
  { destruct ys; [destruct l; [congruence|discriminate]|discriminate]. }
  { rewrite map_length. congruence. }
  { intros n d Hn. rewrite map_length in Hn. 
    rewrite (nth_indep _ d ((fun a : nd F => Nd (nshape a) (fun _ : index => @f0 F)) d)) by now rewrite map_length.
    rewrite (map_nth (fun a : nd F => Nd (nshape a) (fun _ : index => @f0 F))). split; [|reflexivity]. cbn [nshape]. apply Hy. congruence. }
  cbn [bind]. exists a. split; [|exact Sa]. now apply finish with (g := fun _ _ _ => f0).
Qed.

(** ** The cross-covariances of a conditioned process *)
Notation sizes l := (map (fun p : pvcc F => size (p_rv p)) l).
Theorem C62_constructor : forall l,
  (mk_kLas l = Ok l <-> exists q, In q l /\ Forall (fun p => p_in p = p_in q /\ p_out p = p_out q /\ p_rev p = false) l) /\
  (mk_kLas l = Ok l \/ mk_kLas l = Err (match l with [] => IndexError | _ => AssertionError end)).
Proof.
  intros l. split.
  - split.
    + intros M. destruct l as [|q l]; [discriminate|]. exists q. split; [now left|]. unfold mk_kLas in M.
      destruct (forallb _ _) eqn:E; [|discriminate]. rewrite forallb_forall in E. apply Forall_forall. intros p D. specialize (E p D).
      apply andb_prop in E as [E E3]. apply andb_prop in E as [E1 E2]. destruct (shape_eqb_spec (p_in p) (p_in q)), (shape_eqb_spec (p_out p) (p_out q)), (p_rev p); try discriminate; auto.
    + intros [q [D H]]. rewrite Forall_forall in H. destruct l as [|c l]; [destruct D|]. unfold mk_kLas.
      replace (forallb _ _) with true; [reflexivity|]. symmetry. apply forallb_forall. intros p Dp.
      destruct (H p Dp) as [-> [-> ->]]. destruct (H c (or_introl eq_refl)) as [-> [-> _]]. now rewrite !shape_eqb_refl.
  - destruct l as [|q l]; [now right|]. unfold mk_kLas. destruct (forallb _ _); auto.
Qed.
(** Appending keeps the earlier entries. *)
Theorem C62_append : forall l p, mk_kLas l = Ok l ->
  (kLas_append l p = Ok (l ++ [p]) <-> p_in p = kLas_in l /\ p_out p = kLas_out l /\ p_rev p = false) /\
  (kLas_append l p = Ok (l ++ [p]) \/ kLas_append l p = Err AssertionError).
Proof.
  intros l p M. unfold kLas_append. destruct (proj1 (proj1 (C62_constructor l)) M) as [q [D H]]. rewrite Forall_forall in H.
  destruct l as [|c l]; [destruct D|]. destruct (H c (or_introl eq_refl)) as [Ei [Eo _]]. split.
  - destruct (C62_constructor ((c :: l) ++ [p])) as [I _]. etransitivity; [exact I|]. cbn [kLas_in kLas_out]. split.
    + intros [r [_ Hr]]. rewrite Forall_forall in Hr. destruct (Hr c (or_introl eq_refl)) as [Ci [Co _]].
      destruct (Hr p) as [Pi [Po Pr]]; [apply in_or_app; right; now left|]. rewrite Pi, Po, Ci, Co. auto.
    + intros [Pi [Po Pr]]. exists q. split; [apply in_or_app; now left|]. apply Forall_app. split; [now apply Forall_forall|].
      constructor; [|constructor]. rewrite Pi, Po, Ei, Eo. auto.
  - destruct (C62_constructor ((c :: l) ++ [p])) as [_ A]. exact A.
Qed.

Lemma reshape_last_ok (a : nd F) pre t : size pre <> 0 -> nshape a = pre ++ t ->
  exists c, reshape_last a pre = Ok c /\ nshape c = pre ++ [size t] /\
    forall i r, valid_index pre i -> valid_index t r -> nat_ c (i ++ [ravel t r]) = nat_ a (i ++ r).
Proof.
  intros N E. unfold reshape_last. apply Nat.eqb_neq in N as N'. rewrite N', E, size_app.
  replace (size pre * size t / size pre) with (size t) by (rewrite Nat.mul_comm; symmetry; now apply Nat.div_mul).
  destruct (reshape_ok a (pre ++ [size t])) as [c [-> [S V]]]; [rewrite E, !size_app; f_equal; cbn; lia|].
  exists c. split; [reflexivity|]. split; [exact S|]. intros i r Hi Hr. apply V.
  - rewrite E. now apply valid_index_app.
  - apply valid_index_app; [exact Hi|]. constructor; [now apply ravel_lt|constructor].
  - rewrite E, !ravel_app; try assumption; [|constructor; [now apply ravel_lt|constructor]]. cbn. lia.
Qed.
Lemma removelast_snoc {A} (l : list A) a : removelast (l ++ [a]) = l.
Proof. rewrite removelast_app by discriminate. now rewrite app_nil_r. Qed.
Lemma cat_last_ok pre (ls : list (nd F)) ns : ls <> [] -> Forall2 (fun a n => nshape a = pre ++ [n]) ls ns ->
  exists c, cat_last ls = Ok c /\ nshape c = pre ++ [total ns] /\
    forall j a n i k, nth_error ls j = Some a -> nth_error ns j = Some n -> length i = length pre -> k < n ->
      nat_ c (i ++ [offset ns j + k]) = nat_ a (i ++ [k]).
Proof.
  destruct ls as [|a ls]; [congruence|]. intros _ H. cbn [cat_last]. revert a ns H. induction ls as [|a' ls IH]; intros a ns H; inversion H as [|? n ? ns' Ha H']; subst.
  - inversion H'; subst. exists a. split; [reflexivity|]. split; [rewrite Ha; cbn; now rewrite Nat.add_0_r|].
    intros [|[|j]] c m i k Ec Em Li Hk; try discriminate. injection Ec as <-. now rewrite offset_0.
  - cbn [cat_last_from]. destruct (IH a' ns' H') as [c [-> [Sc Vc]]]. cbn [bind]. unfold cat_last2. rewrite Ha, Sc, !removelast_snoc, !last_last, shape_eqb_refl.
    eexists. split; [reflexivity|]. cbn [nshape nat_]. split; [now rewrite total_cons|].
    intros [|j] e m i k Ec Em Li Hk; cbn in Ec, Em; rewrite firstn_app_l, app_nth2 by (rewrite ?Li; auto); rewrite Li, Nat.sub_diag; cbn [nth].
    + injection Ec as <-. injection Em as <-. rewrite offset_0, Nat.add_0_l. destruct (Nat.ltb_spec k n); [reflexivity|lia].
    + rewrite offset_S. destruct (Nat.ltb_spec (n + offset ns' j + k) n); [lia|].
      replace (n + offset ns' j + k - n) with (offset ns' j + k) by lia. now apply (Vc j e m).
Qed.

(** The call shows the cross-covariance with observation [j] at the columns of that
    observation, in C order; the jax view of an array is the same. *)
Theorem C62_call : forall l x b (gs : list value), mk_kLas l = Ok l -> size (b ++ kLas_out l) <> 0 -> Forall2 (fun p g => pv_shows p x b g) l gs ->
  exists a, kLas_call l x = Ok a /\ kLas_jax false l x = Ok a /\ nshape a = b ++ kLas_out l ++ [total (sizes l)] /\
    forall j p g i o r, nth_error l j = Some p -> nth_error gs j = Some g -> valid_index b i -> valid_index (kLas_out l) o -> valid_index (p_rv p) r ->
      nat_ a (i ++ o ++ [offset (sizes l) j + ravel (p_rv p) r]) = g i o r.
Proof.
  intros l x b gs M Z H. destruct (proj1 (proj1 (C62_constructor l)) M) as [q [D A]]. rewrite Forall_forall in A.
  assert (N : l <> []) by (intros ->; destruct D).
  assert (A' : forall p, In p l -> p_in p = kLas_in l /\ p_out p = kLas_out l /\ p_rev p = false).
  { intros p Hp. destruct (A p Hp) as [-> [-> ->]]. destruct l as [|c l]; [congruence|]. destruct (A c (or_introl eq_refl)) as [E1 [E2 _]]. cbn. auto. }
  assert (E : nshape x = b ++ kLas_in l).
  { destruct H as [|c g l gs [E _] _]; [congruence|exact E]. }
  assert (R : forall ms : list (pvcc F), (forall p, In p ms -> In p l) -> forall hs : list value, Forall2 (fun p g => pv_shows p x b g) ms hs ->
     exists ls, mapR (fun p => bind (p_call p x) (fun a => reshape_last a (b ++ kLas_out l))) ms = Ok ls /\
      Forall2 (fun a n => nshape a = (b ++ kLas_out l) ++ [n]) ls (sizes ms) /\
      forall j p g i o r a, nth_error ms j = Some p -> nth_error hs j = Some g -> nth_error ls j = Some a -> valid_index b i -> valid_index (kLas_out l) o -> valid_index (p_rv p) r ->
        nat_ a ((i ++ o) ++ [ravel (p_rv p) r]) = g i o r).
  { intros ms Hm hs S. induction S as [|p g ms hs [Ep [[a [Ea [Sa Va]]] _]] S IH].
    - exists []. split; [reflexivity|]. split; [constructor|]. intros [|j] ? ? ? ? ? ? Q; discriminate.
    - destruct (A' p (Hm p (or_introl eq_refl))) as [_ [Po Pr]]. rewrite Pr, Po in Sa, Va.
      destruct (reshape_last_ok a (b ++ kLas_out l) (p_rv p)) as [c [Ec [Sc Vc]]]; [exact Z|now rewrite <- app_assoc|].
      destruct IH as [ls [Els [F2 V]]]; [intros p' Hp'; apply Hm; now right|].
      exists (c :: ls). cbn [mapR]. rewrite Ea. cbn [bind]. rewrite Ec. cbn [bind]. rewrite Els. cbn [bind]. split; [reflexivity|]. split; [now constructor|].
      intros [|j] p' g' i o r a' Ep' Eg' Ea' Hi Ho Hr; cbn in Ep', Eg', Ea'; [|now apply (V j p')].
      injection Ep' as <-. injection Eg' as <-. injection Ea' as <-. rewrite Vc by (try apply valid_index_app; assumption). rewrite <- app_assoc. now apply Va. }
  destruct (R l (fun _ h => h) gs H) as [ls [Els [F2 V]]].
  destruct (cat_last_ok (b ++ kLas_out l) ls (sizes l)) as [a [Ec [Sa Va]]].
  { intros ->. inversion F2 as [Q|]. destruct l; [congruence|discriminate]. }
  { exact F2. }
  assert (RW : kLas_rows l x b = Ok a) by (unfold kLas_rows; now rewrite Els). rewrite <- app_assoc in Sa.
  assert (FI : kLas_finish l b a = Ok a) by (unfold kLas_finish, kLas_size; fold (total (sizes l)); now rewrite Sa, shape_eqb_refl).
  exists a. unfold kLas_call, kLas_jax. rewrite (batch_shape_ok _ _ _ E). cbn [bind np_asarray]. rewrite RW. cbn [bind]. repeat split; auto.
  intros j p g i o r Hp Hg Hi Ho Hr. rewrite app_assoc.
  assert (En : nth_error (sizes l) j = Some (size (p_rv p))) by now rewrite nth_error_map, Hp.
  destruct (nth_error ls j) as [c|] eqn:Ej.
  - assert (Li : length (i ++ o) = length (b ++ kLas_out l)) by (rewrite !app_length, (valid_index_length _ _ Hi), (valid_index_length _ _ Ho); reflexivity).
    rewrite (Va j c (size (p_rv p)) (i ++ o) _ Ej En Li (ravel_lt _ _ Hr)). now apply (V j p).
  - exfalso. apply nth_error_None in Ej. rewrite (Forall2_len _ _ _ F2), map_length in Ej. apply nth_error_None in Ej. congruence.
Qed.
(** Without points, the deduced length is ambiguous and every view raises. *)
Theorem C62_no_points_refuted : forall l x b (gs : list value), mk_kLas l = Ok l -> size (b ++ kLas_out l) = 0 -> Forall2 (fun p g => pv_shows p x b g) l gs ->
  kLas_call l x = Err ValueError /\ kLas_jax false l x = Err ValueError.
Proof.
  intros l x b gs M Z H. destruct H as [|p g l gs [E [[a [Ea _]] _]] H]; [discriminate|].
  assert (K : kLas_rows (p :: l) x b = Err ValueError).
  { unfold kLas_rows. cbn [mapR]. rewrite Ea. cbn [bind]. unfold reshape_last. apply Nat.eqb_eq in Z. now rewrite Z. }
  unfold kLas_call, kLas_jax. cbn [kLas_in np_asarray]. rewrite (batch_shape_ok _ _ _ E). cbn [bind]. now rewrite K.
Qed.
(** The views of an empty list, which the constructor refuses, would raise. *)
Theorem C62_empty : forall x : nd F, mk_kLas (@nil (pvcc F)) = Err IndexError /\ kLas_call (@nil (pvcc F)) x = Err ValueError.
Proof.
  intros x. split; [reflexivity|]. assert (E : nshape x = nshape x ++ kLas_in (@nil (pvcc F))) by (cbn [kLas_in]; now rewrite app_nil_r). unfold kLas_call. now rewrite (batch_shape_ok _ _ _ E).
Qed.
(** The operator view puts the cross-covariances side by side. *)
Theorem C62_linop : forall l x b (gs : list value), mk_kLas l = Ok l -> Forall2 (fun p g => pv_shows p x b g) l gs ->
  exists m, kLas_linop l x = Ok m /\ nrows m = size (kLas_out l ++ b) /\ ncols m = total (sizes l) /\
    forall j p g i o r, nth_error l j = Some p -> nth_error gs j = Some g -> valid_index b i -> valid_index (kLas_out l) o -> valid_index (p_rv p) r ->
      entry m (ravel (kLas_out l ++ b) (o ++ i)) (offset (sizes l) j + ravel (p_rv p) r) = g i o r.
Proof.
  intros l x b gs M H. destruct (proj1 (proj1 (C62_constructor l)) M) as [q [D A]]. rewrite Forall_forall in A.
  assert (N : l <> []) by (intros ->; destruct D).
  assert (A' : forall p, In p l -> p_in p = kLas_in l /\ p_out p = kLas_out l /\ p_rev p = false).
  { intros p Hp. destruct (A p Hp) as [-> [-> ->]]. destruct l as [|c l]; [congruence|]. destruct (A c (or_introl eq_refl)) as [E1 [E2 _]]. cbn. auto. }
  assert (E : nshape x = b ++ kLas_in l).
  { destruct H as [|c g l gs [E _] _]; [congruence|exact E]. }
  assert (R : forall ms : list (pvcc F), (forall p, In p ms -> In p l) -> forall hs : list value, Forall2 (fun p g => pv_shows p x b g) ms hs ->
     exists ls, mapR (fun p => p_linop p x) ms = Ok ls /\ length ls = length ms /\
      forall j p g m, nth_error ms j = Some p -> nth_error hs j = Some g -> nth_error ls j = Some m -> cross_matrix m false b (kLas_out l) (p_rv p) g).
  { intros ms Hm hs S. induction S as [|p g ms hs Sp S IH].
    - exists []. split; [reflexivity|]. split; [reflexivity|]. intros [|j] ? ? ? Q; discriminate.
    - destruct (A' p (Hm p (or_introl eq_refl))) as [_ [Po Pr]]. destruct (linop_view p x b g Sp) as [m [Em Hmm]]. rewrite Pr, Po in Hmm.
      destruct IH as [ls [Els [L V]]]; [intros p' Hp'; apply Hm; now right|].
      exists (m :: ls). cbn [mapR]. rewrite Em. cbn [bind]. rewrite Els. cbn [bind]. split; [reflexivity|]. split; [cbn; congruence|].
      intros [|j] p' g' m' Ep' Eg' Ea'; cbn in Ep', Eg', Ea'; [|now apply (V j)]. injection Ep' as <-. injection Eg' as <-. now injection Ea' as <-. }
  destruct (R l (fun _ h => h) gs H) as [ls [Els [L V]]].
  assert (W : forall j p m, nth_error l j = Some p -> nth_error ls j = Some m -> nrows m = size (kLas_out l ++ b) /\ ncols m = size (p_rv p)).
  { intros j p m Hp Hm. destruct (nth_error gs j) as [g|] eqn:Eg.
    - exact (proj1 (proj1 (cross_matrix_entry _ _ _ _ _ _) (V j p g m Hp Eg Hm))).
    - exfalso. apply nth_error_None in Eg. rewrite <- (Forall2_len _ _ _ H) in Eg. apply nth_error_None in Eg. congruence. }
  assert (LY : layout [ls] [size (kLas_out l ++ b)] (sizes l)).
  { split; [discriminate|]. split; [destruct l; [congruence|discriminate]|]. split; [reflexivity|].
    intros i row Er. destruct i as [|[|i]]; try discriminate. injection Er as <-. split; [rewrite map_length; congruence|].
    intros j m Ej. destruct (nth_error l j) as [p|] eqn:Ep.
    - destruct (W j p m Ep Ej) as [-> ->]. split; [reflexivity|]. now rewrite nth_error_map, Ep.
    - exfalso. apply nth_error_None in Ep. rewrite <- L in Ep. apply nth_error_None in Ep. congruence. }
  destruct (proj1 (C15_block_accepts [ls]) (mkbm [ls] (total [size (kLas_out l ++ b)]) (total (sizes l)) (split_indices (sizes l)))) as [_ B].
  specialize (B (ex_intro _ _ (ex_intro _ _ (conj LY eq_refl)))).
  destruct (C15_block_todense [ls] _ _ _ LY B) as [m [EM [DR [DC DE]]]].
  exists m. unfold kLas_linop. rewrite (batch_shape_ok _ _ _ E). cbn [bind]. rewrite Els. cbn [bind]. unfold block_linop. rewrite B. cbn [bind].
  split; [exact EM|]. split; [rewrite DR; cbn; lia|]. split; [exact DC|].
  intros j p g i o r Hp Hg Hi Ho Hr. destruct (nth_error ls j) as [mj|] eqn:Ej.
  - destruct (W j p mj Hp Ej) as [WR WC]. specialize (DE 0 j ls mj eq_refl Ej (ravel (kLas_out l ++ b) (o ++ i)) (ravel (p_rv p) r)).
    rewrite offset_0 in DE. cbn [Nat.add] in DE. rewrite DE.
    + pose proof (proj2 (proj1 (cross_matrix_entry _ _ _ _ _ _) (V j p g mj Hp Hg Ej)) i o r Hi Ho Hr) as G. exact G.
    + rewrite WR. apply ravel_lt. now apply valid_index_app.
    + rewrite WC. now apply ravel_lt.
  - exfalso. apply nth_error_None in Ej. rewrite L in Ej. apply nth_error_None in Ej. congruence.
Qed.

(** ** The mean of a conditioned process *)
Lemma sum_segments (ns : list nat) (f : nat -> F) :
  fsum (map f (seq 0 (total ns))) = fsum (map (fun j => fsum (map (fun k => f (offset ns j + k)) (seq 0 (nth j ns 0)))) (seq 0 (length ns))).
Proof.
  revert f. induction ns as [|n ns IH]; intros f; [reflexivity|]. rewrite total_cons, (sum_split LF). cbn [length].
  change (seq 0 (S (length ns))) with (0 :: seq 1 (length ns)). cbn [map]. rewrite <- seq_shift, map_map.
  change (fsum (?a :: ?r)) with (fadd a (fsum r)). f_equal.
  rewrite IH. apply fsum_seq_ext. intros j Hj. cbn [nth]. apply fsum_seq_ext. intros k Hk. f_equal. rewrite offset_S. lia.
Qed.
(** The posterior mean at a point: the prior mean plus, for every observation, the
    cross-covariance with it times its weights. *)
Theorem C62_mean : forall prior l w x b (gs : list value) m (mu : index -> index -> F),
  mk_kLas l = Ok l -> size (b ++ kLas_out l) <> 0 -> Forall2 (fun p g => pv_shows p x b g) l gs ->
  prior x = Ok m -> nshape m = b ++ kLas_out l -> (forall i o, valid_index b i -> valid_index (kLas_out l) o -> nat_ m (i ++ o) = mu i o) ->
  (length w = total (sizes l) -> exists a, mean_call prior l w x = Ok a /\ nshape a = b ++ kLas_out l /\
     forall i o, valid_index b i -> valid_index (kLas_out l) o ->
       nat_ a (i ++ o) = fadd (mu i o) (fsum (map (fun j =>
         fsum (map (fun k => fmul (nth j gs (fun _ _ _ => f0) i o (unravel (p_rv (nth j l (PZero [] [] [] false))) k)) (nth (offset (sizes l) j + k) w f0))
                   (seq 0 (nth j (sizes l) 0)))) (seq 0 (length l))))) /\
  (length w <> total (sizes l) -> mean_call prior l w x = Err ValueError).
Proof.
  intros prior l w x b gs m mu M Z H Em Sm Vm. destruct (C62_call l x b gs M Z H) as [a [Ea [_ [Sa Va]]]].
  unfold mean_call. rewrite Em. cbn [bind]. rewrite Ea. cbn [bind]. unfold rows_times. rewrite Sa, app_assoc, removelast_snoc, last_last. split.
  - intros L. rewrite (proj2 (Nat.eqb_eq _ _) (eq_sym L)). cbn [bind]. unfold nd_add. cbn [nshape]. rewrite Sm, shape_eqb_refl.
    eexists. split; [reflexivity|]. cbn [nd_map2 nshape nat_]. split; [exact Sm|]. intros i o Hi Ho. rewrite Vm by assumption. f_equal.
    rewrite L, sum_segments, map_length. apply fsum_seq_ext. intros j Hj. apply fsum_seq_ext. intros k Hk. f_equal.
    destruct (nth_error l j) as [p|] eqn:Ep; [|apply nth_error_None in Ep; lia].
    assert (Hg : j < length gs) by now rewrite <- (Forall2_len _ _ _ H).
    rewrite (nth_error_nth _ _ _ Ep).
    replace (nth j (sizes l) 0) with (size (p_rv p)) in Hk by (symmetry; apply nth_error_nth; now rewrite nth_error_map, Ep).
    rewrite <- (Va j p _ i o (unravel (p_rv p) k) Ep (nth_error_nth' _ _ Hg) Hi Ho (unravel_valid _ _ Hk)), ravel_unravel by exact Hk. now rewrite app_assoc.
  - intros L. destruct (Nat.eqb_spec (total (sizes l)) (length w)); [congruence|]. reflexivity.
Qed.

(** The jitted views trace [jax] of the cross-covariances, which call NumPy. *)
Theorem C62_posterior_jax_refuted : forall prior priork l w x (x1 : option (nd F)) b, mk_kLas l = Ok l ->
  (nshape x = b ++ kLas_in l -> kLas_jax true l x = Err TypeError) /\
  (forall a, mean_jax prior l w x <> Ok a) /\ (forall a, cov_jax priork l x x1 <> Ok a) /\
  (forall m, nshape x = b ++ kLas_in l -> prior x = Ok m -> mean_jax prior l w x = Err TypeError) /\
  (forall m, nshape x = b ++ kLas_in l -> priork x x1 = Ok m -> cov_jax priork l x x1 = Err TypeError).
Proof.
  intros prior priork l w x x1 b M.
  assert (K : forall a, kLas_jax true l x <> Ok a) by (intros a; unfold kLas_jax; now destruct (batch_shape _ x)).
  assert (T : nshape x = b ++ kLas_in l -> kLas_jax true l x = Err TypeError) by (intros E; unfold kLas_jax; now rewrite (batch_shape_ok _ _ _ E)).
  unfold mean_jax, cov_jax. repeat split.
  - exact T.
  - intros a. destruct (prior x); [|discriminate]. cbn [bind]. destruct (kLas_jax true l x) as [y|]; [now destruct (K y)|discriminate].
  - intros a. destruct (priork x x1); [|discriminate]. cbn [bind]. destruct (kLas_jax true l x) as [y|]; [now destruct (K y)|discriminate].
  - intros m E ->. cbn [bind]. now rewrite (T E).
  - intros m E ->. cbn [bind]. now rewrite (T E).
Qed.
End P.

(** ** Examples *)
(** Observations at two points and a scalar one, at three points. *)
Definition two_obs : list (pvcc QcF) :=
  [PEval skew_kern ev23 false; PScaled (qz 2) (PLeaf [] [] [] false (fun y _ _ => fadd (y []) f1))].
Definition five : nd QcF := vec [5; 7; 8]%Z.
Example ex_C62_views : exists a m, mk_kLas two_obs = Ok two_obs /\ kLas_call two_obs five = Ok a /\ kLas_jax false two_obs five = Ok a /\
  kLas_linop two_obs five = Ok m /\ nshape a = [3; 3] /\ map (fun k => this (nat_ a [1; k])) [0; 1; 2] = [98; 147; 16]%Q /\
  map (fun k => this (entry m 1 k)) [0; 1; 2] = [98; 147; 16]%Q /\ kLas_jax true two_obs five = Err TypeError.
Proof. do 2 eexists. do 4 (split; [reflexivity|]). repeat split; reflexivity. Qed.
Definition two_leaves : list (pvcc QcF) :=
  [PLeaf [] [] [2] false (fun y _ r => fadd (y []) (qz (Z.of_nat (nth 0 r 0)))); PScaled (qz 2) (PLeaf [] [] [] false (fun y _ _ => fadd (y []) f1))].
Example ex_C62_hypotheses : mk_kLas two_leaves = Ok two_leaves /\ size ([3] ++ kLas_out two_leaves) = 3 /\
  Forall2 (fun p g => pv_shows p five [3] g) two_leaves
    [fun i _ r => fadd (nat_ five (i ++ [])) (qz (Z.of_nat (nth 0 r 0))); fun i _ _ => fmul (qz 2) (fadd (nat_ five (i ++ [])) f1)].
Proof.
  split; [reflexivity|]. split; [reflexivity|]. constructor; [|constructor; [|constructor]].
  - now apply leaf_shows.
  - apply (scaled_shows (qz 2) (PLeaf [] [] [] false (fun y _ _ => fadd (y []) f1)) five [3] (fun i _ _ => fadd (nat_ five (i ++ [])) f1)). now apply leaf_shows.
Qed.
Example ex_C62_mean : exists a, mean_call (fun x => Ok (nd_map (fun v => fmul v v) x)) two_obs [qz 1; qz 10; qz 100] five = Ok a /\ nshape a = [3] /\
  this (nat_ a [1]) = 3217%Q /\ mean_jax (fun x => Ok x) two_obs [qz 1; qz 10; qz 100] five = Err TypeError /\
  mean_call (fun x => Ok x) two_obs [qz 1] five = Err ValueError.
Proof. eexists. do 1 (split; [reflexivity|]). repeat split; reflexivity. Qed.
Example ex_C62_append : kLas_append two_obs (PZero [] [] [4] false) = Ok (two_obs ++ [PZero [] [] [4] false]) /\
  kLas_append two_obs (PZero [] [] [4] true) = Err AssertionError /\ kLas_append two_obs (PZero [1] [] [4] false) = Err AssertionError /\
  mk_kLas (@nil (pvcc QcF)) = Err IndexError.
Proof. repeat split. Qed.
Example ex_C62_no_points : kLas_call two_obs (vec []) = Err ValueError /\ exists m, kLas_linop two_obs (vec []) = Ok m /\ nrows m = 0 /\ ncols m = 3.
Proof. split; [reflexivity|]. eexists. split; [reflexivity|]. split; reflexivity. Qed.
(** A stack: right by call, zero by [jax]. *)
Example ex_C62_stack : exists p a a', mk_pstack [2] [PEval prod_kern ev23 false; PEval skew_kern ev23 false] = Ok p /\
  p_call p five = Ok a /\ p_jax false p five = Ok a' /\ nshape a = [3; 2; 2] /\ nshape a' = [3; 2; 2] /\
  this (nat_ a [1; 1; 0]) = 98%Q /\ this (nat_ a' [1; 1; 0]) = 0%Q /\ p_jax true p five = Err TypeError.
Proof. do 3 eexists. do 3 (split; [reflexivity|]). repeat split; reflexivity. Qed.
Example ex_C62_jax : p_jax false (PScaled (qz 2) (PEval skew_kern ev23 true)) five = p_call (PScaled (qz 2) (PEval skew_kern ev23 true)) five /\
  p_jax true (PEval skew_kern ev23 true) five = Err TypeError /\
  p_jax false (PSum [PZero [] [] [2] false; PLinOp (matz 2 2 [1; 2; 3; 4]%Z) (PEval skew_kern ev23 false)]) five = Err NotImplementedError.
Proof. repeat split; reflexivity. Qed.

Print Assumptions C62_concrete.
Print Assumptions C62_traced.
Print Assumptions C62_traced_error_refuted.
Print Assumptions C62_not_implemented.
Print Assumptions C62_stack_zero.
Print Assumptions C62_stack_refuted.
Print Assumptions C62_constructor.
Print Assumptions C62_append.
Print Assumptions C62_call.
Print Assumptions C62_no_points_refuted.
Print Assumptions C62_linop.
Print Assumptions C62_mean.
Print Assumptions C62_posterior_jax_refuted.
