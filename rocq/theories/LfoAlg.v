(** The arithmetic of operators. *)
From Coq Require Import List Reals Lra Lia Bool Arith ZArith FunctionalExtensionality.
From Coquelicot Require Import Coquelicot.
From Verif Require Import Base NdArray PolyClassModel PolyCalc FunExprModel FunExprProofs
  DiffopModel DiffopSpec DiffopProofs DiffopFactor LfoModel LfoSpec LfoSmooth LfoProofs LfoSound LfoTotal.
Import ListNotations.
Open Scope R_scope.

Lemma o_scale_ok s L : wfo L -> wfo (o_scale s L) /\ o_in (o_scale s L) = o_in L /\ o_out (o_scale s L) = o_out L /\
  forall F x k, osem (o_scale s L) F x k = s * osem L F x k.
Proof.
  intros W. destruct W; cbn [o_scale]; (split; [repeat (constructor; auto)|split; [reflexivity|split; [reflexivity|]]]); intros; cbn [osem]; try reflexivity. ring.
Qed.
Lemma mk_sum2 L M : wfo L -> wfo M -> o_in L = o_in M -> o_out L = o_out M ->
  exists P, o_add L M = Ok P /\ wfo P /\ o_in P = o_in L /\ o_out P = o_out L /\ forall F x k, osem P F x k = osem L F x k + osem M F x k.
Proof.
  intros WL WM Ei Eo. exists (OSum [L; M]). split.
  - unfold o_add, mk_sum. cbn [forallb]. rewrite Ei, Eo. assert (R : forall p, shapes_eqb p p = true) by (intros p; destruct (shapes_eqb_spec p p); congruence). now rewrite !R.
  - split; [|split; [reflexivity|split; [reflexivity|]]].
    + apply wo_sum; intros N [<-|[<-|[]]]; auto.
    + intros. cbn [osem map]. unfold total. cbn. ring.
Qed.
Lemma o_add_err L M : o_in L <> o_in M \/ o_out L <> o_out M -> o_add L M = Err AssertionError.
Proof.
  intros H. unfold o_add, mk_sum. cbn [forallb]. destruct (shapes_eqb_spec (o_in M) (o_in L)) as [E1|N1]; [|cbn; now rewrite andb_false_r].
  destruct (shapes_eqb_spec (o_out M) (o_out L)) as [E2|N2]; [|cbn; now rewrite andb_false_r]. destruct H; congruence.
Qed.
(** Induction with access to the summands. *)
Definition matmul_list (L : lfo) := fix go (Ms : list lfo) : result (list lfo) :=
  match Ms with [] => Ok [] | M :: Ms' => bind (o_matmul L M) (fun P => bind (go Ms') (fun Ps => Ok (P :: Ps))) end.
Lemma o_matmul_sum L Ms : o_matmul L (OSum Ms) = bind (matmul_list L Ms) mk_sum.
Proof. reflexivity. Qed.
Lemma comp2_ok L M : wfo L -> wfo M -> o_in L = o_out M -> mk_comp2 L M = Ok (OComp [L; M]) /\ wfo (OComp [L; M]).
Proof.
  intros WL WM E. unfold mk_comp2. destruct (shapes_eqb_spec (o_in L) (o_out M)); [|congruence]. split; [reflexivity|].
  apply wo_comp; [exact WL|now apply wo_comp1|exact E].
Qed.
Lemma o_matmul_ok L : wfo L -> forall M, wfo M -> o_in L = o_out M ->
  exists P, o_matmul L M = Ok P /\ wfo P /\ o_in P = o_in M /\ o_out P = o_out L /\
    forall F, vsmooth (o_in M) F -> forall x k, valid_index (snd (o_out L)) k -> osem P F x k = osem L (osem M F) x k.
Proof.
  intros WL. induction 1 as [dom cod|d Hd|s M W IH|M Ms W IH Hs|M W IH|M M2 Ms W IH W2 IH2 EM]; intros E;
    try (match goal with |- exists P, o_matmul _ ?M = _ /\ _ => assert (WM : wfo M) by (constructor; assumption); destruct (comp2_ok L M WL WM E) as [H1 H2]; exists (OComp [L; M]) end;
      split; [exact H1|split; [exact H2|split; [reflexivity|split; [reflexivity|reflexivity]]]]).
  rewrite o_matmul_sum.
  assert (G : forall l, (forall N, In N l -> In N (M :: Ms)) -> exists Ps, matmul_list L l = Ok Ps /\
    Forall2 (fun N P => wfo P /\ o_in P = o_in M /\ o_out P = o_out L /\
      forall F, vsmooth (o_in M) F -> forall x k, valid_index (snd (o_out L)) k -> osem P F x k = osem L (osem N F) x k) l Ps).
  { induction l as [|N l IHl]; intros Hl; [exists []; split; [reflexivity|constructor]|].
    assert (HN : In N (M :: Ms)) by (apply Hl; now left). destruct (Hs N HN) as [Hi Ho].
    destruct (IH N HN) as (P & HP & WP & IP & OP & VP); [rewrite Ho; exact E|]. destruct IHl as (Ps & HPs & F2); [intros; apply Hl; now right|].
    exists (P :: Ps). cbn [matmul_list]. rewrite HP. cbn [bind]. fold (matmul_list L). rewrite HPs. split; [reflexivity|].
    constructor; [|exact F2]. split; [exact WP|]. split; [congruence|]. split; [exact OP|]. rewrite Hi in VP. exact VP. }
  destruct (G (M :: Ms) (fun N H => H)) as (Ps & HPs & F2). rewrite HPs. cbn [bind].
  assert (HP : forall P, In P Ps -> wfo P /\ o_in P = o_in M /\ o_out P = o_out L).
  { intros P HP. clear - F2 HP. induction F2 as [|N P' l Ps' HNP F2 IH]; [destruct HP|]. destruct HP as [<-|HP]; [tauto|auto]. }
  destruct Ps as [|P0 Ps]; [inversion F2|].
  assert (MK : mk_sum (P0 :: Ps) = Ok (OSum (P0 :: Ps))).
  { unfold mk_sum. match goal with |- context [if ?b then _ else _] => assert (B : b = true) end.
    { apply forallb_forall. intros P Hin. destruct (HP P Hin) as (_ & -> & ->). destruct (HP P0 (or_introl eq_refl)) as (_ & -> & ->).
      assert (R : forall p, shapes_eqb p p = true) by (intros p; destruct (shapes_eqb_spec p p); congruence). now rewrite !R. }
    now rewrite B. }
  exists (OSum (P0 :: Ps)). split; [exact MK|]. destruct (HP P0 (or_introl eq_refl)) as (WP0 & I0 & O0). split; [|split; [exact I0|split; [exact O0|]]].
  - apply wo_sum; [intros P Hin; now apply HP|]. intros P Hin. destruct (HP P Hin) as (_ & -> & ->). auto.
  - intros F SF x k Hk. change (osem (OSum (M :: Ms)) F) with (fun x k => total (map (fun N => osem N F x k) (M :: Ms))).
    rewrite (osem_total L WL (fun N => osem N F) (M :: Ms)).
    + cbn [osem]. change (vsmooth (o_in M) F) in SF. clear - F2 SF Hk. remember (P0 :: Ps) as Ps' eqn:EQ. clear EQ P0 Ps. induction F2 as [|N P l Ps HNP F2 IH]; [reflexivity|]. cbn [map]. destruct HNP as (_ & _ & _ & V).
      change (osem P F x k + total (map (fun N => osem N F x k) Ps) = osem L (osem N F) x k + total (map (fun a => osem L (osem a F) x k) l)).
      rewrite IH. rewrite V; auto.
    + intros N HN. destruct (Hs N HN) as [Hi Ho]. cbn in E. rewrite E, <- Ho. apply osem_smooth; [now apply W|]. rewrite Hi. exact SF.
Qed.
Lemma o_matmul_err L M : wfo M -> o_in L <> o_out M -> o_matmul L M = Err AssertionError.
Proof.
  intros W. induction W as [dom cod|d Hd|s M W IH|M Ms W IH Hs|M W IH|M M2 Ms W IH W2 IH2 EM]; intros E;
    try (match goal with |- o_matmul _ ?M = _ => change (mk_comp2 L M = Err AssertionError); unfold mk_comp2; destruct (shapes_eqb_spec (o_in L) (o_out M)) as [X|X]; [contradiction|reflexivity] end).
  rewrite o_matmul_sum. cbn [matmul_list]. rewrite (IH M (or_introl eq_refl)); [reflexivity|exact E].
Qed.
Lemma omeaning_value e i o : oty e i o -> exists L, obuild e = Ok L /\ wfo L /\ o_in L = i /\ o_out L = o /\
  forall F, vsmooth i F -> forall x k, valid_index (snd o) k -> osem L F x k = omeaning e F x k.
Proof.
  induction 1 as [dom cod|d Hd|s e i o H IH|e i o H IH|e1 e2 i o H1 IH1 H2 IH2|e1 e2 i o H1 IH1 H2 IH2|e1 e2 i m o H1 IH1 H2 IH2]; cbn [obuild omeaning].
  - eexists. split; [reflexivity|]. split; [constructor|]. repeat split.
  - eexists. split; [reflexivity|]. split; [now constructor|]. repeat split.
  - destruct IH as (L & -> & W & Ei & Eo & V). cbn [bind]. destruct (o_scale_ok s L W) as (W' & Ei' & Eo' & V').
    exists (o_scale s L). split; [reflexivity|]. split; [exact W'|]. split; [congruence|]. split; [congruence|]. intros F SF x k Hk. rewrite V', V by assumption. reflexivity.
  - destruct IH as (L & -> & W & Ei & Eo & V). cbn [bind]. unfold o_neg. destruct (o_scale_ok (-1) L W) as (W' & Ei' & Eo' & V').
    exists (o_scale (-1) L). split; [reflexivity|]. split; [exact W'|]. split; [congruence|]. split; [congruence|]. intros F SF x k Hk. rewrite V', V by assumption. ring.
  - destruct IH1 as (L & -> & W1 & Ei1 & Eo1 & V1), IH2 as (M & -> & W2 & Ei2 & Eo2 & V2). cbn [bind].
    destruct (mk_sum2 L M W1 W2) as (P & HP & WP & EiP & EoP & VP); try congruence.
    exists P. split; [exact HP|]. split; [exact WP|]. split; [congruence|]. split; [congruence|]. intros F SF x k Hk. rewrite VP, V1, V2 by assumption. reflexivity.
  - destruct IH1 as (L & -> & W1 & Ei1 & Eo1 & V1), IH2 as (M & -> & W2 & Ei2 & Eo2 & V2). cbn [bind]. unfold o_sub, o_neg.
    destruct (o_scale_ok (-1) M W2) as (W2' & Ei2' & Eo2' & V2').
    destruct (mk_sum2 L (o_scale (-1) M) W1 W2') as (P & HP & WP & EiP & EoP & VP); try congruence.
    exists P. split; [exact HP|]. split; [exact WP|]. split; [congruence|]. split; [congruence|]. intros F SF x k Hk. rewrite VP, V2', V1, V2 by assumption. ring.
  - destruct IH1 as (L & -> & W1 & Ei1 & Eo1 & V1), IH2 as (M & -> & W2 & Ei2 & Eo2 & V2). cbn [bind].
    destruct (o_matmul_ok L W1 M W2) as (P & HP & WP & EiP & EoP & VP); [congruence|].
    exists P. split; [exact HP|]. split; [exact WP|]. split; [congruence|]. split; [congruence|]. intros F SF x k Hk.
    rewrite VP; [|rewrite Ei2; exact SF|rewrite Eo1; exact Hk].
    assert (S2 : vsmooth m (osem M F)) by (rewrite <- Eo2; apply osem_smooth; [exact W2|rewrite Ei2; exact SF]).
    assert (S3 : vsmooth m (omeaning e2 F)).
    { intros O. specialize (S2 O). replace (fun y => omeaning e2 F y []) with (fun y => osem M F y []); [exact S2|].
      extensionality y. apply V2; [exact SF|]. rewrite O. constructor. }
    rewrite (osem_ext L W1 (osem M F) (omeaning e2 F)); [now apply V1| |try (rewrite Eo1; exact Hk)..].
    intros y j Hj. apply V2; [exact SF|]. rewrite <- Ei1. exact Hj.
Qed.
Lemma obuild_typed e L : obuild e = Ok L -> (forall d, In d (x_diffs e) -> dwf d) -> oty e (o_in L) (o_out L).
Proof.
  revert L. induction e as [dom cod|d|s e IH|e IH|e1 IH1 e2 IH2|e1 IH1 e2 IH2|e1 IH1 e2 IH2]; intros L H D; cbn [obuild] in H.
  - injection H as <-. constructor.
  - injection H as <-. constructor. apply D. now left.
  - apply bind_ok in H as (M & HM & [= <-]). specialize (IH M HM D). destruct (omeaning_value _ _ _ IH) as (M' & HM' & WM & _).
    assert (M' = M) by congruence. subst M'. destruct (o_scale_ok s M WM) as (_ & -> & -> & _). now constructor.
  - apply bind_ok in H as (M & HM & [= <-]). specialize (IH M HM D). destruct (omeaning_value _ _ _ IH) as (M' & HM' & WM & _).
    assert (M' = M) by congruence. subst M'. unfold o_neg. destruct (o_scale_ok (-1) M WM) as (_ & -> & -> & _). now constructor.
  - apply bind_ok in H as (M & HM & H). apply bind_ok in H as (N & HN & H).
    specialize (IH1 M HM (fun d X => D d (in_or_app _ _ _ (or_introl X)))). specialize (IH2 N HN (fun d X => D d (in_or_app _ _ _ (or_intror X)))).
    destruct (mk_sum_ok _ _ H) as (L0 & Ms & [= <- <-] & -> & Hs). destruct (Hs N (or_intror (or_introl eq_refl))) as [Ei Eo].
    cbn [o_in o_out]. rewrite Ei, Eo in IH2. now constructor.
  - apply bind_ok in H as (M & HM & H). apply bind_ok in H as (N & HN & H).
    specialize (IH1 M HM (fun d X => D d (in_or_app _ _ _ (or_introl X)))). specialize (IH2 N HN (fun d X => D d (in_or_app _ _ _ (or_intror X)))).
    destruct (omeaning_value _ _ _ IH2) as (N' & HN' & WN & _). assert (N' = N) by congruence. subst N'.
    unfold o_sub in H. destruct (mk_sum_ok _ _ H) as (L0 & Ms & [= <- <-] & -> & Hs). destruct (Hs (o_neg N) (or_intror (or_introl eq_refl))) as [Ei Eo].
    unfold o_neg in Ei, Eo. destruct (o_scale_ok (-1) N WN) as (_ & Ei' & Eo' & _). cbn [o_in o_out]. rewrite Ei' in Ei. rewrite Eo' in Eo. rewrite Ei, Eo in IH2. now constructor.
  - apply bind_ok in H as (M & HM & H). apply bind_ok in H as (N & HN & H).
    specialize (IH1 M HM (fun d X => D d (in_or_app _ _ _ (or_introl X)))). specialize (IH2 N HN (fun d X => D d (in_or_app _ _ _ (or_intror X)))).
    destruct (omeaning_value _ _ _ IH1) as (M' & HM' & WM & _). assert (M' = M) by congruence. subst M'.
    destruct (omeaning_value _ _ _ IH2) as (N' & HN' & WN & _). assert (N' = N) by congruence. subst N'.
    destruct (shapes_eqb_spec (o_in M) (o_out N)) as [E|NE]; [|rewrite (o_matmul_err M N WN NE) in H; discriminate].
    destruct (o_matmul_ok M WM N WN E) as (P & HP & _ & EiP & EoP & _). assert (P = L) by congruence. subst P. rewrite EiP, EoP.
    rewrite E in IH1. econstructor; eassumption.
Qed.
Lemma obuild_err e ex : (forall d, In d (x_diffs e) -> dwf d) -> obuild e = Err ex -> ex = AssertionError.
Proof.
  revert ex. induction e as [dom cod|d|s e IH|e IH|e1 IH1 e2 IH2|e1 IH1 e2 IH2|e1 IH1 e2 IH2]; intros ex D H; cbn [obuild] in H; try discriminate;
    try (destruct (obuild e) as [L|e'] eqn:E; [discriminate|cbn in H; apply IH; [exact D|congruence]]).
  all: assert (D1 := fun d X => D d (in_or_app _ _ _ (or_introl X))); assert (D2 := fun d X => D d (in_or_app _ _ _ (or_intror X)));
    destruct (obuild e1) as [L|e'] eqn:E1; [|cbn in H; apply IH1; [exact D1|congruence]]; cbn [bind] in H;
    destruct (obuild e2) as [M|e'] eqn:E2; [|cbn in H; apply IH2; [exact D2|congruence]]; cbn [bind] in H.
  - unfold o_add, mk_sum in H. destruct (forallb _ _); congruence.
  - unfold o_sub, o_add, mk_sum in H. destruct (forallb _ _); congruence.
  - pose proof (obuild_typed _ _ E1 D1) as T1. pose proof (obuild_typed _ _ E2 D2) as T2.
    destruct (omeaning_value _ _ _ T1) as (L' & HL & WL & _), (omeaning_value _ _ _ T2) as (M' & HM & WM & _).
    assert (L' = L) by congruence. assert (M' = M) by congruence. subst L' M'.
    destruct (shapes_eqb_spec (o_in L) (o_out M)) as [E|NE].
    + destruct (o_matmul_ok L WL M WM E) as (P & HP & _). congruence.
    + rewrite (o_matmul_err L M WM NE) in H. congruence.
Qed.
Lemma call_cases m L f g : call m L f = Ok g -> forall n, call n L f = Err RecursionError \/ call n L f = Ok g.
Proof.
  intros H n. destruct (le_lt_dec m n) as [Hle|Hlt]; [right; now apply (call_more m)|].
  assert (G : forall k, rle (call n L f) (call (k + n) L f)).
  { induction k as [|k IH]; [apply rle_refl|]. destruct IH as [IH|IH]; [now left|]. rewrite IH. apply call_mono. }
  specialize (G (m - n)%nat). replace (m - n + n)%nat with m in G by lia. rewrite H in G. exact G.
Qed.
Lemma scaled_comp_diverges n d d' s g : dwf d -> dtotal d' ->
  call n (OComp [ODiff d; OScaled s (ODiff d')]) (FOther (d_dom d') [] g) = Err RecursionError.
Proof.
  intros Hd Td. destruct n as [|n]; [reflexivity|]. cbn [call]. rewrite comp_right. cbn [fold_right bind].
  assert (E : call n (OScaled s (ODiff d')) (FOther (d_dom d') [] g) = Err RecursionError \/
    exists h, call n (OScaled s (ODiff d')) (FOther (d_dom d') [] g) = Ok (FScaled s h)).
  { destruct n as [|n]; [now left|].
    destruct (leaf_total d' (FOther (d_dom d') [] g) Td eq_refl eq_refl eq_refl eq_refl) as (h & Hh & _ & Ho).
    destruct (Ho eq_refl) as [h' ->]. cbn [call]. destruct (call_cases 6 _ _ _ Hh n) as [-> | ->]; [now left|]. right. cbn. eauto. }
  destruct E as [-> | [h ->]]; cbn [bind]; [reflexivity|]. now apply scaled_diverges.
Qed.
