(** Lemmas: values of composite covariance functions, functionals and operators on them. *)
From Coq Require Import List Arith Lia Bool Permutation Ring Field_theory FunctionalExtensionality.
From Verif Require Import Base NdArray NdData BlockModel BlockSpec BlockProofs CovModel CovSpec CovProofs CrossModel CrossSpec CrossProofs CrossKern CrossViews CrossFun.
Import ListNotations.

Section P.
Context {F : fops} (LF : flaws F).
Implicit Types (p : pvcc F) (b out rv sh : shape).
Notation value := (index -> index -> index -> F).
Notation kernel := (point F -> point F -> index -> index -> F).

Lemma leaf_kern insh o0 o1 (v : kernel) : kern_call (KLeaf insh o0 o1 v) v.
Proof. intros x0 x1 b0 b1 b H B. now apply leaf_call. Qed.
Lemma leaf_kern_linop insh o0 o1 (v : kernel) b0 b1 : kern_linop (KLeaf insh o0 o1 v) v b0 b1.
Proof. intros x0 x1 H. now apply leaf_linop. Qed.
Lemma zero_kern insh o0 o1 : kern_call (@KZero F insh o0 o1) (fun _ _ _ _ => f0).
Proof. intros x0 x1 b0 b1 b H B. now apply (zero_both insh o0 o1 x0 x1 b0 b1 b H B). Qed.
Lemma zero_kern_linop insh o0 o1 n0 n1 : kern_linop (@KZero F insh o0 o1) (fun _ _ _ _ => f0) [n0] [n1].
Proof. intros x0 x1 H. now apply zero_linop. Qed.

Lemma mk_ind_is (l : list (kfun F)) k : mk_ind l = Ok k -> k = KInd l /\ l <> [] /\ Forall (fun c => k_in c = k_in k /\ k_out0 c = [] /\ k_out1 c = []) l.
Proof.
  unfold mk_ind. destruct l as [|c l]; [discriminate|]. destruct (forallb _ (c :: l)) eqn:E; [|discriminate]. intros [= <-].
  split; [reflexivity|]. split; [discriminate|]. rewrite forallb_forall in E. apply Forall_forall. intros d Hd. specialize (E d Hd).
  cbn [k_in]. destruct (shape_eqb_spec (k_in d) (k_in c)), (shape_eqb_spec (k_out0 d) []), (shape_eqb_spec (k_out1 d) []); try discriminate. auto.
Qed.
Lemma component_call (c : kfun F) K x0 x1 b0 b1 b insh : kern_call c K -> k_in c = insh -> k_out0 c = [] -> k_out1 c = [] ->
  points insh x0 x1 b0 b1 -> broadcast_shapes b0 b1 = Ok b ->
  exists a, k_call c x0 x1 = Ok a /\ cov_array a b [] [] (fun i _ _ => leaf_value K x0 x1 b0 b1 i [] []).
Proof.
  intros HK EI E0 E1 H B. rewrite <- EI in H. destruct (HK x0 x1 b0 b1 b H B) as [a [Ea [Sa Va]]]. rewrite E0, E1 in *. exists a. split; [exact Ea|].
  split; [exact Sa|]. intros i o q Hi Ho Hq. rewrite Va by assumption. inversion Ho. now inversion Hq.
Qed.
(** Components numbered by [G]. *)
Lemma ind_kern (l : list (kfun F)) k (G : nat -> kernel) : mk_ind l = Ok k ->
  (forall n c, nth_error l n = Some c -> kern_call c (G n)) ->
  kern_call k (fun x y o q => if nth 0 o 0 =? nth 0 q 0 then G (nth 0 o 0) x y [] [] else f0).
Proof.
  intros M H x0 x1 b0 b1 b HP B. destruct (mk_ind_is _ _ M) as [Ek [N HS]]. rewrite Forall_forall in HS.
  destruct (ind_call l k x0 x1 b0 b1 b (fun n i => leaf_value (G n) x0 x1 b0 b1 i [] []) M HP B) as [a [Ea Ha]].
  { intros n c Hc. destruct (HS c (nth_error_In _ _ Hc)) as [E [E0 E1]]. now apply (component_call c (G n) x0 x1 b0 b1 b (k_in k) (H n c Hc)). }
  exists a. split; [exact Ea|]. rewrite Ek. exact Ha.
Qed.
Lemma stack_kern sh (l : list (kfun F)) idx k (G : nat -> kernel) : mk_stack sh l idx = Ok k -> length l = size sh ->
  (forall n c, nth_error l n = Some c -> kern_call c (G n)) ->
  kern_call k (fun x y o q => G (ravel sh (if idx =? 0 then o else q)) x y [] []).
Proof.
  intros M L H x0 x1 b0 b1 b HP B. destruct (stack_is _ _ _ _ M) as [Ek [N [_ HS]]]. rewrite Forall_forall in HS.
  destruct (stack_call sh l idx k x0 x1 b0 b1 b (fun n i => leaf_value (G n) x0 x1 b0 b1 i [] []) M L HP B) as [a [Ea Ha]].
  { intros n c Hc. destruct (HS c (nth_error_In _ _ Hc)) as [E [E0 E1]]. now apply (component_call c (G n) x0 x1 b0 b1 b (k_in k) (H n c Hc)). }
  exists a. split; [exact Ea|]. exact Ha.
Qed.
Lemma component_linop (c : kfun F) K x0 x1 b0 b1 insh : kern_linop c K b0 b1 -> k_in c = insh -> k_out0 c = [] -> k_out1 c = [] ->
  points insh x0 x1 b0 b1 ->
  exists m, k_linop c x0 x1 = Ok m /\ cov_matrix m b0 b1 [] [] (fun i j _ _ => K (pt x0 i) (pt (second x0 x1) j) [] []).
Proof.
  intros HK EI E0 E1 H. rewrite <- EI in H. destruct (HK x0 x1 H) as [a [Ea [Ra [Ca Va]]]]. rewrite E0, E1 in *. exists a. split; [exact Ea|].
  split; [exact Ra|]. split; [exact Ca|]. intros i j o q Hi Hj Ho Hq. rewrite Va by assumption. inversion Ho. now inversion Hq.
Qed.
Lemma ind_kern_linop (l : list (kfun F)) k (G : nat -> kernel) b0 b1 : mk_ind l = Ok k ->
  (forall n c, nth_error l n = Some c -> kern_linop c (G n) b0 b1) ->
  kern_linop k (fun x y o q => if nth 0 o 0 =? nth 0 q 0 then G (nth 0 o 0) x y [] [] else f0) b0 b1.
Proof.
  intros M H x0 x1 HP. destruct (mk_ind_is _ _ M) as [Ek [N HS]]. rewrite Forall_forall in HS.
  destruct (ind_linop l k x0 x1 b0 b1 (fun n i j => G n (pt x0 i) (pt (second x0 x1) j) [] []) M) as [a [Ea Ha]].
  { intros n c Hc. destruct (HS c (nth_error_In _ _ Hc)) as [E [E0 E1]]. now apply (component_linop c (G n) x0 x1 b0 b1 (k_in k) (H n c Hc)). }
  exists a. split; [exact Ea|]. rewrite Ek. exact Ha.
Qed.
Lemma stack_kern_linop sh (l : list (kfun F)) idx k (G : nat -> kernel) b0 b1 : mk_stack sh l idx = Ok k -> length l = size sh ->
  (forall n c, nth_error l n = Some c -> kern_linop c (G n) b0 b1) ->
  kern_linop k (fun x y o q => G (ravel sh (if idx =? 0 then o else q)) x y [] []) b0 b1.
Proof.
  intros M L H x0 x1 HP. destruct (stack_is _ _ _ _ M) as [Ek [N [_ HS]]]. rewrite Forall_forall in HS.
  destruct (stack_linop sh l idx k x0 x1 b0 b1 (fun n i j => G n (pt x0 i) (pt (second x0 x1) j) [] []) M L) as [a [Ea Ha]].
  { intros n c Hc. destruct (HS c (nth_error_In _ _ Hc)) as [E [E0 E1]]. now apply (component_linop c (G n) x0 x1 b0 b1 (k_in k) (H n c Hc)). }
  exists a. split; [exact Ea|]. exact Ha.
Qed.

(** ** Validation *)
Lemma validate_ok dom cod (k : kfun F) n : validate dom cod k n = Ok tt <->
  (n = 0 \/ n = 1) /\ k_in k = dom /\ (if n =? 0 then k_out0 k else k_out1 k) = cod.
Proof.
  unfold validate. split.
  - destruct ((n =? 0) || (n =? 1)) eqn:E; [|discriminate]. cbn [negb].
    destruct (shape_eqb_spec (k_in k) dom); [|discriminate]. cbn [negb].
    destruct (shape_eqb_spec (if n =? 0 then k_out0 k else k_out1 k) cod); [|discriminate]. intros _.
    repeat split; auto. apply orb_prop in E as [E|E]; apply Nat.eqb_eq in E; auto.
  - intros [H [-> ->]]. rewrite !shape_eqb_refl. destruct H as [->| ->]; reflexivity.
Qed.
Lemma validate_err dom cod (k : kfun F) n : validate dom cod k n = Ok tt \/ validate dom cod k n = Err ValueError.
Proof. unfold validate. destruct (negb _); auto. destruct (negb _); auto. destruct (negb _); auto. Qed.

(** ** Functionals applied to covariance functions *)
Lemma eval_kern e (k : kfun F) n : f_kern (FEval e) k n = if (match validate (ev_dom e) (ev_cod e) k n with Ok _ => true | _ => false end)
  then Ok (PEval k e (n =? 0)) else Err ValueError.
Proof. cbn [f_kern]. destruct (validate_err (ev_dom e) (ev_cod e) k n) as [-> | ->]; reflexivity. Qed.
Lemma eval1_shows (k : kfun F) (K : kernel) (e : evalf F) (x : nd F) b : kern_call k K -> kern_linop k K b (ev_batch e) -> mk_evalf (ev_dirac e) (k_in k) (k_out1 k) (ev_X e) = Ok e -> plain e ->
  nshape x = b ++ k_in k -> pv_shows (PEval k e false) x b (eval1_value K e x).
Proof.
  intros HC HL HE P E. split; [exact E|]. split.
  - now apply eval1_array.
  - right. now apply eval1_linop.
Qed.
Lemma eval0_shows (k : kfun F) (K : kernel) (e : evalf F) (x : nd F) b : kern_call k K -> kern_linop k K (ev_batch e) b -> mk_evalf (ev_dirac e) (k_in k) (k_out0 k) (ev_X e) = Ok e -> plain e ->
  (forall y z q o, K y z q o = K z y q o) ->
  nshape x = b ++ k_in k -> pv_shows (PEval k e true) x b (eval0_value K e x).
Proof.
  intros HC HL HE P Sy E. assert (EO : p_out (PEval k e true) = k_out1 k).
  { destruct (ev_is _ _ _ _ _ HE) as [Ee _]. cbn [p_out]. assert (Ec : ev_cod e = k_out0 k) by (rewrite Ee; reflexivity). rewrite Ec, skipn_app_l by reflexivity. now destruct (ev_dirac e). }
  split; [exact E|]. rewrite EO. split.
  - destruct (eval0_array k K e x b HC HE E) as [a [Ea Ha]]. exists a. split; [exact Ea|]. eapply cross_array_ext; [exact Ha|].
    intros i o r _ _ _. unfold eval0_array_value, eval0_value. apply Sy.
  - right. now apply eval0_linop.
Qed.
Lemma lf_kern_stack (L : lfun F) sh (l : list (kfun F)) idx k n : mk_stack sh l idx = Ok k -> validate (lf_dom L) (lf_cod L) k n = Ok tt ->
  lf_kern L k n = bind (mapR (fun c => lf_kern L c n) l) (mk_pstack sh).
Proof. intros M V. destruct (stack_is _ _ _ _ M) as [-> _]. cbn [lf_kern]. rewrite V. reflexivity. Qed.
Lemma mapR_leaves {A B} (f : A -> result B) (g : A -> B) l : (forall c, In c l -> f c = Ok (g c)) -> mapR f l = Ok (map g l).
Proof.
  induction l as [|c l IH]; intros H; cbn [mapR map]; [reflexivity|]. rewrite (H c (or_introl eq_refl)). cbn [bind].
  rewrite IH by (intros; apply H; now right). reflexivity.
Qed.
Lemma mk_pstack_ok sh (l : list (pvcc F)) insh rv rev : l <> [] -> (forall c, In c l -> p_in c = insh /\ p_out c = [] /\ p_rv c = rv /\ p_rev c = rev) ->
  mk_pstack sh l = Ok (PStack sh l).
Proof.
  intros N H. destruct l as [|q l]; [congruence|]. unfold mk_pstack. destruct (H q (or_introl eq_refl)) as [E1 [E2 [E3 E4]]].
  assert (forall f : pvcc F -> bool, (forall c, In c (q :: l) -> f c = true) -> forallb f (q :: l) = true) as FB by (intros; now apply forallb_forall).
  rewrite !FB; [reflexivity| | | |]; intros c Hc; destruct (H c Hc) as [C1 [C2 [C3 C4]]]; rewrite ?C1, ?C2, ?C3, ?C4, ?E1, ?E3, ?E4, ?shape_eqb_refl; auto; apply eqb_reflx.
Qed.
Lemma mk_stack_ok sh (l : list (kfun F)) idx insh : l <> [] -> (idx = 0 \/ idx = 1) -> (forall c, In c l -> k_in c = insh /\ k_out0 c = [] /\ k_out1 c = []) ->
  mk_stack sh l idx = Ok (KStack sh l idx).
Proof.
  intros N I H. destruct l as [|q l]; [congruence|]. unfold mk_stack. destruct (H q (or_introl eq_refl)) as [E1 _].
  assert (forall f : kfun F -> bool, (forall c, In c (q :: l) -> f c = true) -> forallb f (q :: l) = true) as FB by (intros; now apply forallb_forall).
  rewrite !FB.
  - destruct I as [->| ->]; reflexivity.
  - intros c Hc. destruct (H c Hc) as [_ [-> ->]]. reflexivity.
  - intros c Hc. destruct (H c Hc) as [-> _]. rewrite E1. apply shape_eqb_refl.
Qed.
(** A stack of leaves [v n]. *)
Definition leaves (insh : shape) (v : nat -> point F -> point F -> F) (n : nat) : list (kfun F) :=
  map (fun m => KLeaf insh [] [] (fun x y _ _ => v m x y)) (seq 0 n).
Lemma leaves_nth insh v n m c : nth_error (leaves insh v n) m = Some c -> m < n /\ c = KLeaf insh [] [] (fun x y _ _ => v m x y).
Proof.
  unfold leaves. intros H. assert (Hm : m < n).
  { rewrite <- (seq_length n 0), <- (map_length (fun m => KLeaf insh [] [] (fun x y _ _ => v m x y))). apply nth_error_Some. congruence. }
  split; [exact Hm|]. rewrite nth_error_map in H. rewrite (nth_error_nth' _ 0) in H by now rewrite seq_length. rewrite seq_nth in H by assumption. now inversion H.
Qed.
Lemma leaves_length insh v n : length (leaves insh v n) = n.
Proof. unfold leaves. now rewrite map_length, seq_length. Qed.
Lemma leaves_in insh v n c : In c (leaves insh v n) -> exists m, m < n /\ c = KLeaf insh [] [] (fun x y _ _ => v m x y).
Proof. unfold leaves. intros H. apply in_map_iff in H as [m [<- H]]. apply in_seq in H. exists m. split; [lia|reflexivity]. Qed.
Lemma leaves_nonempty insh v n : 0 < n -> leaves insh v n <> [].
Proof. destruct n; [lia|discriminate]. Qed.
Lemma lf_kern_leaves (L : lfun F) sh insh v idx n k x b : mk_stack sh (leaves insh v (size sh)) idx = Ok k -> lf_dom L = insh -> lf_cod L = [] -> n = 1 - idx ->
  nshape x = b ++ insh ->
  exists p, lf_kern L k n = Ok p /\ p_out p = sh /\ p_rv p = lf_out L /\ p_rev p = (n =? 0) /\
   pv_shows p x b (fun i o r => lf_act L (fun y _ => if n =? 0 then v (ravel sh o) y (pt x i) else v (ravel sh o) (pt x i) y) r).
Proof.
  intros M ED EC En E. destruct (stack_is _ _ _ _ M) as [Ek [N [I HS]]]. set (l := leaves insh v (size sh)) in *.
  assert (EI : k_in k = insh).
  { rewrite Ek. cbn [k_in]. destruct l as [|c l'] eqn:El; [congruence|]. destruct (leaves_in insh v (size sh) c) as [m [_ ->]]; [fold l; rewrite El; now left|]. reflexivity. }
  assert (V : validate (lf_dom L) (lf_cod L) k n = Ok tt).
  { apply validate_ok. split; [lia|]. split; [congruence|]. rewrite EC, En, Ek. destruct I as [->| ->]; reflexivity. }
  set (g := fun m : nat => PLeaf insh [] (lf_out L) (n =? 0)
     (fun z o r => lf_act L (fun y (q : index) => if n =? 0 then v m y z else v m z y) r)).
  assert (EM : mapR (fun c => lf_kern L c n) l = Ok (map g (seq 0 (size sh)))).
  { assert (G : forall s, mapR (fun c => lf_kern L c n) (map (fun m => KLeaf insh [] [] (fun x y _ _ => v m x y)) s) = Ok (map g s)); [|apply G].
    induction s as [|m s IH]; [reflexivity|]. cbn [map mapR]. rewrite IH.
    assert (EL : lf_kern L (KLeaf insh [] [] (fun x y _ _ => v m x y)) n = Ok (g m)).
    { cbn [lf_kern]. assert (V' : validate (lf_dom L) (lf_cod L) (KLeaf insh [] [] (fun x y _ _ => v m x y)) n = Ok tt).
      { apply validate_ok. cbn [k_in k_out0 k_out1]. split; [lia|]. split; [congruence|]. rewrite EC. now destruct (n =? 0). }
      rewrite V'. cbn [bind]. unfold g. assert (D : n = 0 \/ n = 1) by lia. destruct D as [->| ->]; reflexivity. }
    rewrite EL. reflexivity. }
  rewrite (lf_kern_stack L sh l idx k n M V), EM. cbn [bind].
  assert (LN : 0 < size sh) by (destruct (size sh) eqn:Z; [|lia]; exfalso; apply N; unfold l; reflexivity).
  assert (MP : mk_pstack sh (map g (seq 0 (size sh))) = Ok (PStack sh (map g (seq 0 (size sh))))).
  { apply (mk_pstack_ok sh _ insh (lf_out L) (n =? 0)); [destruct (size sh); [lia|discriminate]|].
    intros c Hc. apply in_map_iff in Hc as [m [<- _]]. repeat split. }
  rewrite MP. eexists. split; [reflexivity|]. split; [reflexivity|].
  split; [destruct (size sh); [lia|reflexivity]|]. split; [destruct (size sh); [lia|reflexivity]|].
  apply (pstack_shows sh (map g (seq 0 (size sh))) _ x b (fun m i r => lf_act L (fun y (q : index) => if n =? 0 then v m y (pt x i) else v m (pt x i) y) r) MP).
  - now rewrite map_length, seq_length.
  - intros m c Hc. rewrite nth_error_map in Hc. assert (Hm : m < size sh).
    { rewrite <- (seq_length (size sh) 0). apply nth_error_Some. destruct (nth_error (seq 0 (size sh)) m); [discriminate|discriminate Hc]. }
    rewrite (nth_error_nth' _ 0) in Hc by now rewrite seq_length. rewrite seq_nth in Hc by assumption. injection Hc as <-.
    exact (leaf_shows insh [] (lf_out L) (n =? 0) (fun z o r => lf_act L (fun y (q : index) => if n =? 0 then v m y z else v m z y) r) x b E).
Qed.

(** ** Function operators *)
Lemma lo_leaf (L : lop F) insh o0 o1 (v : kernel) n : validate (lo_dom L) (lo_cod L) (KLeaf insh o0 o1 v) n = Ok tt -> lo_out_dom L = insh ->
  exists k, lo_kern L (KLeaf insh o0 o1 v) n = Ok k /\ k_in k = insh /\
    k_out0 k = (if n =? 0 then lo_out_cod L else o0) /\ k_out1 k = (if n =? 0 then o1 else lo_out_cod L) /\
    let K := fun x y o q => if n =? 0 then lo_act L (fun z r => v z y r q) x o else lo_act L (fun z r => v x z o r) y q in
    kern_call k K /\ forall b0 b1, kern_linop k K b0 b1.
Proof.
  intros V E. cbn [lo_kern]. rewrite V. cbn [bind k_in]. rewrite E, shape_eqb_refl. cbn [negb].
  destruct (n =? 0); eexists; (split; [reflexivity|]); repeat split; try apply leaf_kern; intros; apply leaf_kern_linop.
Qed.
Lemma lo_leaves (L : lop F) sh insh v idx n k : mk_stack sh (leaves insh v (size sh)) idx = Ok k -> lo_dom L = insh -> lo_cod L = [] ->
  lo_out_dom L = insh -> lo_out_cod L = [] -> n = 1 - idx ->
  exists k', lo_kern L k n = Ok k' /\ k_in k' = insh /\ k_out0 k' = k_out0 k /\ k_out1 k' = k_out1 k /\
    let K := fun x y o q => let m := ravel sh (if idx =? 0 then o else q) in
      if n =? 0 then lo_act L (fun z _ => v m z y) x [] else lo_act L (fun z _ => v m x z) y [] in
    kern_call k' K /\ forall b0 b1, kern_linop k' K b0 b1.
Proof.
  intros M ED EC EOD EOC En. destruct (stack_is _ _ _ _ M) as [Ek [N [I HS]]]. set (l := leaves insh v (size sh)) in *.
  assert (EI : k_in k = insh).
  { rewrite Ek. cbn [k_in]. destruct l as [|c l'] eqn:El; [congruence|]. destruct (leaves_in insh v (size sh) c) as [m [_ ->]]; [fold l; rewrite El; now left|]. reflexivity. }
  assert (V : validate (lo_dom L) (lo_cod L) k n = Ok tt).
  { apply validate_ok. split; [lia|]. split; [congruence|]. rewrite EC, En, Ek. destruct I as [->| ->]; reflexivity. }
  set (w := fun m x y => if n =? 0 then lo_act L (fun z (_ : index) => v m z y) x [] else lo_act L (fun z (_ : index) => v m x z) y []).
  set (g := fun m : nat => KLeaf insh [] [] (fun x y o q => if n =? 0 then lo_act L (fun z (_ : index) => v m z y) x o else lo_act L (fun z (_ : index) => v m x z) y q)).
  assert (EM : mapR (fun c => lo_kern L c n) l = Ok (map g (seq 0 (size sh)))).
  { assert (G : forall s, mapR (fun c => lo_kern L c n) (map (fun m => KLeaf insh [] [] (fun x y _ _ => v m x y)) s) = Ok (map g s)); [|apply G].
    induction s as [|m s IH]; [reflexivity|]. cbn [map mapR]. rewrite IH.
    assert (EL : lo_kern L (KLeaf insh [] [] (fun x y _ _ => v m x y)) n = Ok (g m)).
    { cbn [lo_kern]. assert (V' : validate (lo_dom L) (lo_cod L) (KLeaf insh [] [] (fun x y _ _ => v m x y)) n = Ok tt).
      { apply validate_ok. cbn [k_in k_out0 k_out1]. split; [lia|]. split; [congruence|]. rewrite EC. now destruct (n =? 0). }
      rewrite V'. cbn [bind k_in]. rewrite EOD, EOC, shape_eqb_refl. cbn [negb]. unfold g.
      assert (D : n = 0 \/ n = 1) by lia. destruct D as [->| ->]; reflexivity. }
    rewrite EL. reflexivity. }
  assert (EK : lo_kern L k n = bind (mapR (fun c => lo_kern L c n) l) (fun l' => mk_stack sh l' idx)).
  { rewrite Ek in V, EI |- *. cbn [lo_kern]. rewrite V. cbn [bind]. rewrite EI, EOD, shape_eqb_refl. cbn [negb].
    rewrite En. destruct I as [->| ->]; reflexivity. }
  assert (LN : 0 < size sh) by (destruct (size sh) eqn:Z; [|lia]; exfalso; apply N; unfold l; reflexivity).
  assert (MS : mk_stack sh (map g (seq 0 (size sh))) idx = Ok (KStack sh (map g (seq 0 (size sh))) idx)).
  { apply (mk_stack_ok sh _ idx insh); [destruct (size sh); [lia|discriminate]|exact I|].
    intros c Hc. apply in_map_iff in Hc as [m [<- _]]. repeat split. }
  rewrite EK, EM. cbn [bind]. rewrite MS. eexists. split; [reflexivity|].
  split; [destruct (size sh); [lia|reflexivity]|]. split; [now rewrite Ek|]. split; [now rewrite Ek|].
  assert (C : forall m c, nth_error (map g (seq 0 (size sh))) m = Some c -> c = g m).
  { intros m c Hc. rewrite nth_error_map in Hc. assert (Hm : m < size sh).
    { rewrite <- (seq_length (size sh) 0). apply nth_error_Some. destruct (nth_error (seq 0 (size sh)) m); [discriminate|discriminate Hc]. }
    rewrite (nth_error_nth' _ 0) in Hc by now rewrite seq_length. rewrite seq_nth in Hc by assumption. now injection Hc as <-. }
  set (G := fun m => fun x y (o q : index) => if n =? 0 then lo_act L (fun z (_ : index) => v m z y) x o else lo_act L (fun z (_ : index) => v m x z) y q).
  split.
  - apply (stack_kern sh _ idx _ G MS); [now rewrite map_length, seq_length|]. intros m c Hc. rewrite (C m c Hc). apply leaf_kern.
  - intros b0 b1. apply (stack_kern_linop sh _ idx _ G b0 b1 MS); [now rewrite map_length, seq_length|].
    intros m c Hc. rewrite (C m c Hc). apply leaf_kern_linop.
Qed.
Lemma lo_zero (L : lop F) insh o0 o1 n : validate (lo_dom L) (lo_cod L) (@KZero F insh o0 o1) n = Ok tt -> lo_out_dom L = insh ->
  lo_kern L (KZero insh o0 o1) n = Ok (KZero insh (if n =? 0 then lo_out_cod L else o0) (if n =? 0 then o1 else lo_out_cod L)).
Proof.
  intros V E. cbn [lo_kern]. pose proof (proj1 (validate_ok _ _ _ _) V) as [[D|D] _]; rewrite V; cbn [bind k_in]; rewrite E, shape_eqb_refl, D; reflexivity.
Qed.
(** [SelectOutput]. *)
Lemma valid_forallb sh idx : valid_index sh idx -> (length idx =? length sh) && forallb (fun '(i, d) => i <? d) (combine idx sh) = true.
Proof.
  induction 1 as [|i d idx sh L H IH]; [reflexivity|]. cbn [combine forallb length Nat.eqb].
  apply andb_prop in IH as [IH1 IH2]. rewrite IH1, IH2, (proj2 (Nat.ltb_lt i d) L). reflexivity.
Qed.
Lemma valid_forallb_inv sh idx : (length idx =? length sh) && forallb (fun '(i, d) => i <? d) (combine idx sh) = true -> valid_index sh idx.
Proof.
  revert sh. induction idx as [|i idx IH]; intros [|d sh]; cbn [combine forallb length Nat.eqb]; try discriminate; [constructor|].
  intros H. apply andb_prop in H as [H1 H2]. apply andb_prop in H2 as [H2 H3]. constructor; [now apply Nat.ltb_lt|]. apply IH. now rewrite H1, H3.
Qed.
Lemma select_stack (L : lop F) sh (l : list (kfun F)) n k idx : mk_stack sh l n = Ok k -> length l = size sh ->
  lo_dom L = k_in k -> lo_cod L = sh ->
  (valid_index sh idx -> exists c, nth_error l (ravel sh idx) = Some c /\ select_kern L idx k n = Ok c) /\
  (~ valid_index sh idx -> select_kern L idx k n = Err IndexError).
Proof.
  intros M Ln ED EC. destruct (stack_is _ _ _ _ M) as [Ek [N [I HS]]].
  assert (V : validate (lo_dom L) (lo_cod L) k n = Ok tt).
  { apply validate_ok. split; [exact I|]. split; [congruence|]. rewrite EC, Ek. destruct I as [->| ->]; reflexivity. }
  assert (EQ : select_kern L idx k n = match nth_error l (ravel sh idx) with
           | Some c => if (length idx =? length sh) && forallb (fun '(i, d) => i <? d) (combine idx sh) then Ok c else Err IndexError
           | None => Err IndexError
           end).
  { unfold select_kern. rewrite V. cbn [bind]. rewrite Ek. destruct I as [->| ->]; reflexivity. }
  rewrite EQ. split.
  - intros H. destruct (nth_error l (ravel sh idx)) as [c|] eqn:E.
    + exists c. split; [reflexivity|]. now rewrite (valid_forallb _ _ H).
    + apply nth_error_None in E. pose proof (ravel_lt _ _ H). lia.
  - intros H. destruct (nth_error l (ravel sh idx)); [|reflexivity]. destruct (_ && _) eqn:E; [|reflexivity]. now apply valid_forallb_inv in E.
Qed.
Lemma select_ind (L : lop F) (l : list (kfun F)) k i n (G : nat -> kernel) : mk_ind l = Ok k -> lo_dom L = k_in k -> lo_cod L = [length l] ->
  (n = 0 \/ n = 1) -> i < length l -> (forall m c, nth_error l m = Some c -> kern_call c (G m)) ->
  exists k', select_kern L [i] k n = Ok k' /\ k_in k' = k_in k /\ k_out0 k' = (if n =? 0 then [] else [length l]) /\ k_out1 k' = (if n =? 0 then [length l] else []) /\
    kern_call k' (fun x y o q => if nth 0 (if n =? 0 then q else o) 0 =? i then G i x y [] [] else f0).
Proof.
  intros M ED EC D Hi HG. destruct (mk_ind_is _ _ M) as [Ek [N HS]]. rewrite Forall_forall in HS.
  assert (V : validate (lo_dom L) (lo_cod L) k n = Ok tt).
  { apply validate_ok. split; [exact D|]. split; [congruence|]. rewrite EC, Ek. now destruct (n =? 0). }
  destruct (nth_error l i) as [c|] eqn:Ec; [|apply nth_error_None in Ec; lia].
  set (z := @KZero F (k_in k) [] []). set (l' := repeat z i ++ c :: repeat z (length l - i - 1)).
  assert (L' : length l' = length l) by (unfold l'; rewrite app_length; cbn [length]; rewrite !repeat_length; lia).
  assert (MS : mk_stack [length l] l' (1 - n) = Ok (KStack [length l] l' (1 - n))).
  { apply (mk_stack_ok _ _ _ (k_in k)).
    - unfold l'. now destruct (repeat z i).
    - lia.
    - intros d Hd. unfold l' in Hd. apply in_app_or in Hd as [Hd|[<-|Hd]]; [apply repeat_spec in Hd; subst d; auto|exact (HS c (nth_error_In _ _ Ec))|apply repeat_spec in Hd; subst d; auto]. }
  assert (EQ : select_kern L [i] k n = mk_stack [length l] l' (1 - n)).
  { unfold select_kern, l', z. rewrite V. cbn [bind]. rewrite Ek. rewrite Ec. reflexivity. }
  rewrite EQ, MS. eexists. split; [reflexivity|]. split.
  { destruct (stack_is _ _ _ _ MS) as [_ [N' [_ HS']]]. rewrite Forall_forall in HS'. specialize (HS' c).
    destruct HS' as [E _]; [unfold l'; apply in_or_app; right; now left|]. rewrite <- E. exact (proj1 (HS c (nth_error_In _ _ Ec))). }
  split; [destruct D as [->| ->]; reflexivity|]. split; [destruct D as [->| ->]; reflexivity|].
  assert (HC : forall m d, nth_error l' m = Some d -> kern_call d (fun x y o q => if m =? i then G i x y o q else f0)).
  { intros m d Hd. unfold l' in Hd. destruct (lt_eq_lt_dec m i) as [[Lt|Eq]|Gt].
    - rewrite nth_error_app1 in Hd by now rewrite repeat_length. apply nth_error_In, repeat_spec in Hd. subst d.
      rewrite (proj2 (Nat.eqb_neq m i)) by lia. apply zero_kern.
    - subst m. rewrite nth_error_app2 in Hd by (rewrite repeat_length; lia). rewrite repeat_length, Nat.sub_diag in Hd. injection Hd as <-.
      rewrite Nat.eqb_refl. now apply HG.
    - rewrite nth_error_app2 in Hd by (rewrite repeat_length; lia). rewrite repeat_length in Hd. destruct (m - i) as [|j] eqn:J; [lia|].
      cbn [nth_error] in Hd. apply nth_error_In, repeat_spec in Hd. subst d. rewrite (proj2 (Nat.eqb_neq m i)) by lia. apply zero_kern. }
  intros x0 x1 b0 b1 b HP B.
  assert (SZ : length l' = size [length l]) by (rewrite size1; exact L').
  destruct (stack_kern [length l] l' (1 - n) _ _ MS SZ HC x0 x1 b0 b1 b HP B) as [a [Ea [Sa Va]]].
  exists a. split; [exact Ea|]. split; [exact Sa|]. intros j o q Hj Ho Hq. rewrite Va by assumption. unfold leaf_value.
  destruct D as [->| ->]; cbn [Nat.sub Nat.eqb] in *.
  - cbn [k_out1 Nat.eqb] in Hq. apply valid1_inv in Hq as [s [-> Hs]]. now rewrite ravel1.
  - cbn [k_out0 Nat.eqb] in Ho. apply valid1_inv in Ho as [s [-> Hs]]. now rewrite ravel1.
Qed.
End P.
