From Coq Require Import List Arith Bool Lia Field_theory Ring.
From Verif Require Import Base NdArray NdData ObsModel ObsSpec.
Import ListNotations.

Lemma firstn_app_left {A} (a b : list A) : firstn (length (a ++ b) - length b) (a ++ b) = a.
Proof. rewrite app_length. replace (length a + length b - length b) with (length a) by lia. rewrite firstn_app, firstn_all, Nat.sub_diag. now rewrite app_nil_r. Qed.
Lemma skipn_app_left {A} (a b : list A) : skipn (length (a ++ b) - length b) (a ++ b) = b.
Proof. rewrite app_length. replace (length a + length b - length b) with (length a) by lia. rewrite skipn_app, skipn_all, Nat.sub_diag. reflexivity. Qed.

Lemma batch_of_ok dom xs b : batch_of dom xs = Ok b <-> xs = b ++ dom.
Proof.
  unfold batch_of. destruct (shape_eqb_spec xs (firstn (length xs - length dom) xs ++ dom)) as [E|E]; split; intros H.
  - injection H as <-. exact E.
  - subst xs. now rewrite firstn_app_left.
  - discriminate.
  - exfalso. apply E. subst xs. now rewrite firstn_app_left.
Qed.
Lemma batch_of_err dom xs e : batch_of dom xs = Err e <-> e = AssertionError /\ ~ exists b, xs = b ++ dom.
Proof.
  destruct (batch_of dom xs) as [b|e'] eqn:E.
  - split; [discriminate|]. intros [_ H]. exfalso. apply H. exists b. now apply batch_of_ok.
  - assert (e' = AssertionError) as -> by (unfold batch_of in E; destruct (shape_eqb _ _); congruence).
    split.
    + intros [= <-]. split; [reflexivity|]. intros [b ->]. assert (H : batch_of dom (b ++ dom) = Ok b) by now apply batch_of_ok. congruence.
    + intros [-> _]. reflexivity.
Qed.
Lemma functional_ok pin pout X L out e : functional_of pin pout X L = Ok (out, e) <-> measures pin pout X L out e.
Proof.
  split.
  - destruct L as [o ie|od oc| |], X as [xs|]; cbn; try discriminate.
    + intros [= -> ->]. constructor.
    + unfold eval_shape. destruct (batch_of od xs) as [b|] eqn:E; cbn; [|discriminate]. intros [= <- <-].
      apply batch_of_ok in E as ->. constructor.
    + unfold eval_shape. destruct (batch_of pin xs) as [b|] eqn:E; cbn; [|discriminate]. intros [= <- <-].
      apply batch_of_ok in E as ->. constructor.
  - intros H; destruct H; cbn; [reflexivity| |]; unfold eval_shape.
    + replace (batch_of odom (batch ++ odom)) with (Ok batch) by (symmetry; now apply batch_of_ok). reflexivity.
    + replace (batch_of pin (batch ++ pin)) with (Ok batch) by (symmetry; now apply batch_of_ok). reflexivity.
Qed.
Lemma noise_ok {F : fops} out (b : option (barg F)) : check_noise F out b = Ok tt <-> noise_fits out b.
Proof.
  destruct b as [[m c|v|]|]; cbn; try tauto; try (destruct (shape_eqb_spec (nshape m) out)); try (destruct (shape_eqb_spec (nshape v) out));
    split; intros; subst; auto; try discriminate; contradiction.
Qed.
Lemma layout_ok {F : fops} pout out e (Y : nd F) : (exists y, layout F pout out e Y = Ok y) <-> wanted pout out e (nshape Y).
Proof.
  unfold layout, wanted. destruct e; cbn [andb]; [destruct (Nat.ltb_spec 0 (length pout)) as [L|L]|].
  - destruct (shape_eqb_spec (skipn (length (nshape Y) - length pout) (nshape Y)) pout) as [E|E]; cbn [bind].
    + destruct (shape_eqb_spec (nshape (move_last F (length pout) Y)) out) as [E'|E'].
      * split; [intros _|eauto]. exists (firstn (length (nshape Y) - length pout) (nshape Y)). split.
        -- rewrite <- E at 2. symmetry. apply firstn_skipn.
        -- rewrite <- E'. cbn. rewrite E. reflexivity.
      * split; [intros [y [=]]|]. intros [b [Eb Eo]]. exfalso. apply E'. cbn. rewrite Eb, Eo.
        rewrite skipn_app_left, firstn_app_left. reflexivity.
    + split; [intros [y [=]]|]. intros [b [Eb Eo]]. exfalso. apply E. rewrite Eb. apply skipn_app_left.
  - assert (pout = []) as -> by (destruct pout; [reflexivity|cbn in L; lia]). cbn [bind].
    destruct (shape_eqb_spec (nshape Y) out) as [E|E].
    + split; [intros _|eauto]. exists out. rewrite app_nil_r. auto.
    + split; [intros [y [=]]|]. intros [b [Eb Eo]]. exfalso. apply E. rewrite Eb, Eo. now rewrite app_nil_r.
  - cbn [bind]. destruct (shape_eqb_spec (nshape Y) out) as [E|E]; split; eauto; [|congruence]. intros [y [=]].
Qed.
Lemma layout_err {F : fops} pout out e (Y : nd F) x : layout F pout out e Y = Err x -> x = ValueError.
Proof.
  unfold layout. destruct (e && _); [destruct (shape_eqb (skipn _ _) _)|]; cbn [bind]; try (destruct (shape_eqb _ _)); congruence.
Qed.
(** Acceptance. *)
Lemma accepts {F : fops} pin pout (Y : nd F) X L b Lm LkL :
  (exists p, preprocess pin pout Y X L b Lm LkL = Ok p) <->
  exists out e, measures pin pout X L out e /\ noise_fits out b /\ wanted pout out e (nshape Y).
Proof.
  unfold preprocess. split.
  - intros [p H]. destruct (functional_of pin pout X L) as [[out e]|] eqn:E; [|discriminate]. cbn in H.
    destruct (check_noise F out b) as [[]|] eqn:E2; [|discriminate]. cbn in H.
    destruct (layout F pout out e Y) as [y|] eqn:E3; [|discriminate].
    exists out, e. rewrite <- functional_ok, <- noise_ok, <- layout_ok. eauto.
  - intros [out [e [H1 [H2 H3]]]]. apply functional_ok in H1. apply noise_ok in H2. apply layout_ok in H3 as [y H3].
    rewrite H1. cbn. rewrite H2. cbn. rewrite H3. cbn. destruct (add_noise F b (flatten Lm) LkL). eauto.
Qed.
Lemma errors {F : fops} pin pout (Y : nd F) X L b Lm LkL x : preprocess pin pout Y X L b Lm LkL = Err x ->
  match L, X with
  | LFunctional _ _, Some _ => x = TypeError
  | LOther, _ => x = TypeError
  | LOperator _ _, None => x = ValueError
  | LNone, None => x = ValueError
  | LOperator od _, Some xs => (x = AssertionError /\ ~ exists b, xs = b ++ od) \/ (b = Some BOther /\ x = TypeError) \/ x = ValueError
  | LNone, Some xs => (x = AssertionError /\ ~ exists b, xs = b ++ pin) \/ (b = Some BOther /\ x = TypeError) \/ x = ValueError
  | LFunctional _ _, None => (b = Some BOther /\ x = TypeError) \/ x = ValueError
  end.
Proof.
  unfold preprocess. intros H.
  assert (R : forall out e, bind (check_noise F out b) (fun _ => bind (layout F pout out e Y) (fun Y' =>
      let '(m, G) := add_noise F b (flatten Lm) LkL in Ok (Prepared F out Y' m G))) = Err x ->
      (b = Some BOther /\ x = TypeError) \/ x = ValueError).
  { intros out e. destruct (check_noise F out b) as [[]|y] eqn:E; cbn.
    - destruct (layout F pout out e Y) as [y|y] eqn:E2; cbn.
      + destruct (add_noise F b (flatten Lm) LkL). discriminate.
      + intros [= <-]. right. now apply layout_err in E2.
    - intros [= <-]. destruct b as [[m c|v|]|]; cbn in E; try discriminate.
      + destruct (shape_eqb _ _); [discriminate|]. right. congruence.
      + destruct (shape_eqb _ _); [discriminate|]. right. congruence.
      + left. split; congruence. }
  destruct L as [o ie|od oc| |], X as [xs|]; cbn [functional_of] in H; cbn [bind] in H; try congruence.
  - now apply R in H.
  - unfold eval_shape in H. destruct (batch_of od xs) as [bs|y] eqn:E; cbn [bind] in H.
    + right. now apply R in H.
    + injection H as <-. left. now apply batch_of_err.
  - unfold eval_shape in H. destruct (batch_of pin xs) as [bs|y] eqn:E; cbn [bind] in H.
    + right. now apply R in H.
    + injection H as <-. left. now apply batch_of_err.
Qed.
Lemma bad_noise {F : fops} pin pout (Y : nd F) X L Lm LkL out e : measures pin pout X L out e ->
  preprocess pin pout Y X L (Some BOther) Lm LkL = Err TypeError.
Proof. intros H. apply functional_ok in H. unfold preprocess. rewrite H. reflexivity. Qed.

(** Meaning of the accepted arguments. *)
Lemma flatten_at {F : fops} (a : nd F) s i : nshape a = s -> valid_index s i -> nat_ (flatten a) [ravel s i] = nat_ a i.
Proof.
  intros <- Hi. unfold flatten. cbn [nat_]. f_equal.
  replace (ravel [size (nshape a)] [ravel (nshape a) i]) with (ravel (nshape a) i) by (cbn; lia).
  now apply unravel_ravel.
Qed.
Lemma prepared_fields {F : fops} pin pout (Y : nd F) X L b Lm LkL p out e : measures pin pout X L out e ->
  preprocess pin pout Y X L b Lm LkL = Ok p -> pr_out p = out /\ layout F pout out e Y = Ok (pr_Y p) /\
    noise_fits out b /\ (pr_mean p, pr_gram p) = add_noise F b (flatten Lm) LkL.
Proof.
  intros H. apply functional_ok in H. unfold preprocess. rewrite H. cbn.
  destruct (check_noise F out b) as [[]|] eqn:E2; [|discriminate]. cbn. apply noise_ok in E2.
  destruct (layout F pout out e Y) as [y|] eqn:E3; [|discriminate]. cbn.
  destruct (add_noise F b (flatten Lm) LkL) as [m G] eqn:E4. intros [= <-]. cbn. auto.
Qed.
Lemma data_vector {F : fops} pin pout (Y : nd F) X L b Lm LkL p out : measures pin pout X L out false ->
  preprocess pin pout Y X L b Lm LkL = Ok p -> nshape (pr_Y p) = [size out] /\
  forall i, valid_index out i -> nat_ (pr_Y p) [ravel out i] = nat_ Y i.
Proof.
  intros H P. destruct (prepared_fields _ _ _ _ _ _ _ _ _ _ _ H P) as [_ [HY _]]. unfold layout in HY. cbn in HY.
  destruct (shape_eqb_spec (nshape Y) out) as [E|]; [|discriminate]. injection HY as <-. split; [cbn; now rewrite E|].
  intros i Hi. now apply flatten_at.
Qed.
Lemma data_points {F : fops} pin pout (Y : nd F) batch b Lm LkL p :
  preprocess pin pout Y (Some (batch ++ pin)) LNone b Lm LkL = Ok p ->
  nshape (pr_Y p) = [size (pout ++ batch)] /\
  forall i j, valid_index batch i -> valid_index pout j -> nat_ (pr_Y p) [ravel (pout ++ batch) (j ++ i)] = nat_ Y (i ++ j).
Proof.
  intros P. assert (H : measures pin pout (Some (batch ++ pin)) LNone (pout ++ batch) true) by constructor.
  destruct (prepared_fields _ _ _ _ _ _ _ _ _ _ _ H P) as [_ [HY _]]. unfold layout in HY. cbn [andb] in HY.
  destruct (Nat.ltb_spec 0 (length pout)) as [L|L].
  - destruct (shape_eqb_spec (skipn (length (nshape Y) - length pout) (nshape Y)) pout) as [E|E]; [|discriminate]. cbn [bind] in HY.
    destruct (shape_eqb_spec (nshape (move_last F (length pout) Y)) (pout ++ batch)) as [E'|E']; [|discriminate].
    injection HY as <-. split; [cbn [flatten nshape]; now rewrite E'|]. intros i j Hi Hj.
    rewrite (flatten_at _ _ _ E') by now apply valid_index_app. cbn [move_last nat_].
    rewrite <- (valid_index_length _ _ Hj). f_equal. rewrite skipn_app, skipn_all, Nat.sub_diag, firstn_app, firstn_all, Nat.sub_diag.
    cbn. now rewrite app_nil_r.
  - assert (pout = []) as -> by (destruct pout; [reflexivity|cbn in L; lia]). cbn [bind app] in *.
    destruct (shape_eqb_spec (nshape Y) batch) as [E|E]; [|discriminate]. injection HY as <-. split; [cbn; now rewrite E|].
    intros i j Hi Hj. apply valid_index_nil in Hj as ->. rewrite app_nil_r. now apply flatten_at.
Qed.
Section Laws.
Context (F : fops) (LF : flaws F).
Lemma fadd_0_r (x : F) : fadd x f0 = x.
Proof. destruct (fl_field F LF) as [R _ _ _]. rewrite (Radd_comm R). apply (Radd_0_l R). Qed.
Lemma noise_added pin pout (Y : nd F) X L b Lm LkL p out e : measures pin pout X L out e ->
  preprocess pin pout Y X L b Lm LkL = Ok p -> nshape Lm = out ->
  (forall i, valid_index out i -> nat_ (pr_mean p) [ravel out i] = fadd (nat_ Lm i) (bmean b i)) /\
  (forall i j, pr_gram p i j = fadd (LkL i j) (bcov b i j)).
Proof.
  intros H P Em. destruct (prepared_fields _ _ _ _ _ _ _ _ _ _ _ H P) as [_ [_ [HN HM]]].
  destruct b as [[m c|v|]|]; cbn -[flatten ravel] in HM, HN; injection HM as -> ->; cbn -[flatten ravel]; split; intros; rewrite ?fadd_0_r; auto;
    try (rewrite (flatten_at Lm out) by assumption); auto; try contradiction.
  - now rewrite (flatten_at m out).
  - now rewrite (flatten_at v out).
Qed.
End Laws.
