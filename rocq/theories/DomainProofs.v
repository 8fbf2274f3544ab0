(** Proofs about domains. *)
From Coq Require Import List Reals Lra Lia Bool Arith ZArith.
From Verif Require Import Base NdArray DomainModel DomainSpec.
Import ListNotations.
Open Scope R_scope.

Section Ind.
Variable P : domain -> Prop.
Hypothesis Hi : forall dt l u, P (Interval dt l u).
Hypothesis Hp : forall p, P (Point p).
Hypothesis Hb : forall dt bs, P (Box dt bs).
Hypothesis Hprod : forall dt fs, Forall P fs -> P (Prod dt fs).
Fixpoint domain_ind' (d : domain) : P d :=
  match d with
  | Interval dt l u => Hi dt l u
  | Point p => Hp p
  | Box dt bs => Hb dt bs
  | Prod dt fs => Hprod dt fs ((fix go fs := match fs return Forall P fs with
       [] => Forall_nil _ | f :: fs' => Forall_cons _ (domain_ind' f) (go fs') end) fs)
  end.
End Ind.

Lemma all_true_Forall {A} (f : A -> Prop) l : all_true (map f l) <-> Forall f l.
Proof.
  induction l as [|x l IH]; cbn; [split; constructor|]. rewrite IH. split; [intros [H1 H2]; now constructor|inversion 1; auto].
Qed.

Lemma Forall2_length {A B} (R : A -> B -> Prop) l m : Forall2 R l m -> length l = length m.
Proof. induction 1; cbn; congruence. Qed.

(** ** Flattening *)
Definition inb (b : R * R) (x : R) : Prop := fst b <= x <= snd b.
Fixpoint flat (d : domain) : list (R * R) :=
  match d with
  | Interval _ l u => [(l, u)]
  | Point p => map (fun c => (c, c)) (a_data p)
  | Box _ bs => bs
  | Prod _ fs => concat (map flat fs)
  end.
Definition flats (fs : list domain) := concat (map flat fs).

Lemma Forall2_concat {A B} (R : A -> B -> Prop) (ls : list (list A)) xs :
  Forall2 R (concat ls) xs <-> exists parts, xs = concat parts /\ Forall2 (Forall2 R) ls parts.
Proof.
  revert xs. induction ls as [|l ls IH]; intros xs; cbn [concat].
  - split.
    + intros H. inversion H. subst. exists []. split; constructor.
    + intros [parts [-> H]]. inversion H. constructor.
  - split.
    + intros H. apply Forall2_app_inv_l in H as (x1 & x2 & H1 & H2 & ->).
      apply IH in H2 as [parts [-> H2]]. exists (x1 :: parts). split; [reflexivity|now constructor].
    + intros [parts [-> H]]. inversion H as [|? p ? ps H1 H2]; subst. cbn. apply Forall2_app; [exact H1|].
      apply IH. exists ps. auto.
Qed.

Lemma box_inb bs xs : Forall2 (fun '(l, u) x => l <= x <= u) bs xs <-> Forall2 inb bs xs.
Proof. split; (induction 1 as [|[l u] x bs xs H _ IH]; constructor; [exact H|exact IH]). Qed.

Lemma in_set_flat d : forall xs, in_set d xs <-> Forall2 inb (flat d) xs.
Proof.
  induction d as [dt l u|p|dt bs|dt fs IH] using domain_ind'; intros xs; cbn [in_set flat].
  - split.
    + intros [x [-> H]]. constructor; [exact H|constructor].
    + intros H. inversion H as [|? x ? ys H1 H2]; subst. inversion H2; subst. exists x. auto.
  - split.
    + intros ->. induction (a_data p) as [|c l IHl]; cbn; constructor; [unfold inb; cbn; lra|exact IHl].
    + generalize (a_data p) as l. intros l. revert xs. induction l as [|c l IHl]; intros xs H; inversion H as [|? x ? ys H1 H2]; subst; [reflexivity|].
      f_equal; [unfold inb in H1; cbn in H1; lra|now apply IHl].
  - apply box_inb.
  - rewrite Forall2_concat. unfold in_product. split; intros [parts [-> H]]; exists parts; split; try reflexivity.
    + revert parts H. induction IH as [|f fs Hf _ IHfs]; intros parts H; inversion H; subst; constructor; [now apply Hf|now apply IHfs].
    + revert parts H. induction IH as [|f fs Hf _ IHfs]; intros parts H; inversion H; subst; constructor; [now apply Hf|now apply IHfs].
Qed.

Lemma flat_le d : valid d -> Forall (fun b => fst b <= snd b) (flat d).
Proof.
  induction d as [dt l u|p|dt bs|dt fs IH] using domain_ind'; cbn [valid flat].
  - intros [_ H]. constructor; [exact H|constructor].
  - intros _. induction (a_data p); cbn; constructor; [cbn; lra|assumption].
  - intros [_ H]. eapply Forall_impl; [|exact H]. intros [l u] Hlu. exact Hlu.
  - intros (_ & H & _). apply all_true_Forall in H. induction IH as [|f fs Hf _ IHfs]; cbn; [constructor|].
    inversion H; subst. apply Forall_app. auto.
Qed.

(** ** Frontier of a box *)
Definition Bnd (bs : list (R * R)) (xs : list R) : Prop :=
  Forall2 inb bs xs /\ exists b x, In (b, x) (combine bs xs) /\ (x = fst b \/ x = snd b).

Lemma near_length eps xs ys : near eps xs ys -> length ys = length xs.
Proof. induction 1; cbn; congruence. Qed.
Lemma near_refl eps xs : 0 < eps -> near eps xs xs.
Proof. intros H. induction xs; constructor; [|assumption]. replace (a - a) with 0 by ring. now rewrite Rabs_R0. Qed.
Lemma near_weaken e1 e2 xs ys : e1 <= e2 -> near e1 xs ys -> near e2 xs ys.
Proof. intros H. induction 1; constructor; [lra|assumption]. Qed.

Lemma outside_open bs xs : length bs = length xs -> ~ Forall2 inb bs xs ->
  exists eps, 0 < eps /\ forall ys, near eps xs ys -> ~ Forall2 inb bs ys.
Proof.
  revert xs. induction bs as [|[l u] bs IH]; intros [|x xs] L H; try discriminate; [exfalso; apply H; constructor|].
  injection L as L. destruct (Rlt_dec x l) as [Hx|Hx]; [|destruct (Rlt_dec u x) as [Hy|Hy]].
  - exists (l - x). split; [lra|]. intros ys N F. inversion N as [|? y ? ys' Hn _]; subst. inversion F as [|? ? ? ? Hi _]; subst.
    unfold inb in Hi. cbn in Hi. apply Rabs_def2 in Hn. lra.
  - exists (x - u). split; [lra|]. intros ys N F. inversion N as [|? y ? ys' Hn _]; subst. inversion F as [|? ? ? ? Hi _]; subst.
    unfold inb in Hi. cbn in Hi. apply Rabs_def2 in Hn. lra.
  - destruct (IH xs L) as [eps [He HE]].
    { intros F. apply H. constructor; [unfold inb; cbn; lra|exact F]. }
    exists eps. split; [exact He|]. intros ys N F. inversion N; subst. inversion F; subst. eapply HE; eassumption.
Qed.

Lemma inside_open bs xs : Forall2 (fun b x => fst b < x < snd b) bs xs ->
  exists eps, 0 < eps /\ forall ys, near eps xs ys -> Forall2 inb bs ys.
Proof.
  induction 1 as [|[l u] x bs xs H _ [eps [He HE]]].
  - exists 1. split; [lra|]. intros ys N. inversion N. constructor.
  - cbn in H. exists (Rmin eps (Rmin (x - l) (u - x))). split; [repeat apply Rmin_glb_lt; lra|].
    intros ys N. inversion N as [|? y ? ys' Hn Hns]; subst.
    pose proof (Rmin_l eps (Rmin (x - l) (u - x))). pose proof (Rmin_r eps (Rmin (x - l) (u - x))).
    pose proof (Rmin_l (x - l) (u - x)). pose proof (Rmin_r (x - l) (u - x)).
    apply Rabs_def2 in Hn. constructor; [unfold inb; cbn; lra|].
    apply HE. eapply near_weaken; [|exact Hns]. assumption.
Qed.

Lemma strict_or_end bs xs : Forall2 inb bs xs ->
  Forall2 (fun b x => fst b < x < snd b) bs xs \/ exists b x, In (b, x) (combine bs xs) /\ (x = fst b \/ x = snd b).
Proof.
  induction 1 as [|[l u] x bs xs H _ IH]; [left; constructor|]. unfold inb in H. cbn [fst snd] in H.
  destruct IH as [IH|(b & y & Hin & E)]; [|right; exists b, y; split; [now right|exact E]].
  destruct (Req_EM_T x l); [right; exists (l, u), x; split; [now left|cbn; auto]|].
  destruct (Req_EM_T x u); [right; exists (l, u), x; split; [now left|cbn; auto]|].
  left. constructor; [cbn; lra|exact IH].
Qed.

Lemma end_leaves bs xs b x eps : 0 < eps -> Forall2 inb bs xs -> In (b, x) (combine bs xs) -> (x = fst b \/ x = snd b) ->
  exists zs, near eps xs zs /\ ~ Forall2 inb bs zs.
Proof.
  intros He F. induction F as [|b' x' bs xs H F IH]; intros Hin E; [contradiction|].
  cbn in Hin. destruct Hin as [[= -> ->]|Hin].
  - destruct E as [E|E].
    + exists (x - eps / 2 :: xs). split.
      * constructor; [replace (x - eps / 2 - x) with (- (eps / 2)) by ring; rewrite Rabs_Ropp, Rabs_pos_eq; lra|now apply near_refl].
      * intros G. inversion G as [|? ? ? ? Hi _]; subst. unfold inb in Hi. lra.
    + exists (x + eps / 2 :: xs). split.
      * constructor; [replace (x + eps / 2 - x) with (eps / 2) by ring; rewrite Rabs_pos_eq; lra|now apply near_refl].
      * intros G. inversion G as [|? ? ? ? Hi _]; subst. unfold inb in Hi. lra.
  - destruct (IH Hin E) as [zs [N Z]]. exists (x' :: zs). split.
    + constructor; [replace (x' - x') with 0 by ring; now rewrite Rabs_R0|exact N].
    + intros G. inversion G. contradiction.
Qed.

Lemma inb_dec bs xs : {Forall2 inb bs xs} + {~ Forall2 inb bs xs}.
Proof.
  revert xs. induction bs as [|b bs IH]; intros [|x xs]; try (right; intros H; now inversion H); [left; constructor|].
  destruct (IH xs) as [F|F]; [|right; intros H; now inversion H].
  destruct (Rle_dec (fst b) x); [destruct (Rle_dec x (snd b))|].
  - left. constructor; [split; assumption|exact F].
  - right. intros H. inversion H as [|? ? ? ? [? ?] ?]; subst. contradiction.
  - right. intros H. inversion H as [|? ? ? ? [? ?] ?]; subst. contradiction.
Qed.

Lemma frontier_flat bs xs : frontier (Forall2 inb bs) xs <-> Bnd bs xs.
Proof.
  split.
  - intros H.
    assert (L : length bs = length xs).
    { destruct (H 1 ltac:(lra)) as [[ys [N F]] _]. apply near_length in N. apply Forall2_length in F. congruence. }
    assert (F : Forall2 inb bs xs).
    { destruct (inb_dec bs xs) as [F|F]; [exact F|]. destruct (outside_open bs xs L F) as [eps [He HE]]. destruct (H eps He) as [[ys [N Y]] _]. exfalso. eapply HE; eassumption. }
    split; [exact F|]. destruct (strict_or_end bs xs F) as [S|E]; [|exact E].
    destruct (inside_open bs xs S) as [eps [He HE]]. destruct (H eps He) as [_ [zs [N Z]]]. exfalso. apply Z, HE, N.
  - intros [F (b & x & Hin & E)] eps He. split; [exists xs; split; [now apply near_refl|exact F]|].
    eapply end_leaves; eassumption.
Qed.

Lemma combine_app {A B} (l1 l2 : list A) (m1 m2 : list B) : length l1 = length m1 ->
  combine (l1 ++ l2) (m1 ++ m2) = combine l1 m1 ++ combine l2 m2.
Proof. revert m1. induction l1 as [|x l1 IH]; intros [|y m1] H; try discriminate; [reflexivity|]. cbn. f_equal. apply IH. now injection H. Qed.

Lemma Bnd_app b1 b2 xs : Bnd (b1 ++ b2) xs <-> exists c e, xs = c ++ e /\
  ((Bnd b1 c /\ Forall2 inb b2 e) \/ (Forall2 inb b1 c /\ Bnd b2 e)).
Proof.
  split.
  - intros [F (b & x & Hin & E)]. apply Forall2_app_inv_l in F as (c & e & F1 & F2 & ->). exists c, e. split; [reflexivity|].
    rewrite combine_app in Hin by (now apply Forall2_length in F1). apply in_app_or in Hin as [Hin|Hin].
    + left. repeat split; try assumption. exists b, x. auto.
    + right. repeat split; try assumption. exists b, x. auto.
  - intros (c & e & -> & [[[F1 (b & x & Hin & E)] F2]|[F1 [F2 (b & x & Hin & E)]]]); (split; [now apply Forall2_app|]);
      exists b, x; (split; [|exact E]); rewrite combine_app by (now apply Forall2_length in F1); apply in_or_app; auto.
Qed.

(** ** Boundary *)
Definition U (parts : list domain) (xs : list R) : Prop := exists p, In p parts /\ in_set p xs.

Lemma dtype_eqb_spec a b : reflect (a = b) (dtype_eqb a b).
Proof. destruct a, b; cbn; constructor; congruence. Qed.

Lemma mk_prod_ok dt ds : is_floating dt = true -> Forall (fun f => (ndims f <= 1)%nat /\ ddtype f = dt) ds -> ds <> [] ->
  mk_prod ds = Ok (Prod dt ds).
Proof.
  intros Hf H Hne. unfold mk_prod.
  replace (existsb (fun d => (1 <? ndims d)%nat) ds) with false.
  2:{ symmetry. clear Hne. induction H as [|d ds [H1 _] _ IH]; [reflexivity|]. cbn [existsb]. rewrite IH. destruct (Nat.ltb_spec 1 (ndims d)); [lia|reflexivity]. }
  destruct ds as [|d ds]; [congruence|]. inversion H as [|? ? [_ Hd] _]; subst.
  replace (existsb _ (d :: ds)) with false; [now rewrite Hf|].
  symmetry. clear Hf Hne. induction H as [|e es [_ H1] _ IH]; [reflexivity|]. cbn [existsb]. rewrite IH.
  destruct (dtype_eqb_spec (ddtype e) (ddtype d)); [reflexivity|congruence].
Qed.

Lemma flats_app a b : flats (a ++ b) = flats a ++ flats b.
Proof. unfold flats. now rewrite map_app, concat_app. Qed.

Lemma in_prod_set dt ds xs : in_set (Prod dt ds) xs <-> Forall2 inb (flats ds) xs.
Proof. apply in_set_flat. Qed.

Definition good (dt : dtype) (f : domain) : Prop := valid f /\ (ndims f <= 1)%nat /\ ddtype f = dt.

Lemma good_prod dt fs : is_floating dt = true -> Forall (good dt) fs -> good dt (Prod dt fs).
Proof.
  intros Hf H. unfold good. split; [|split; [unfold ndims; cbn; lia|reflexivity]]. cbn. split; [exact Hf|].
  split; [apply all_true_Forall|]; (eapply Forall_impl; [|exact H]); intros f (H1 & H2 & H3); auto.
Qed.

Definition boundary_ok (dt : dtype) (f : domain) (r : result (list domain)) : Prop :=
  exists parts, r = Ok parts /\ Forall (good dt) parts /\ forall xs, U parts xs <-> Bnd (flat f) xs.

Lemma product_parts_ok dt (B : domain -> result (list domain)) fs : is_floating dt = true ->
  Forall (fun f => good dt f /\ boundary_ok dt f (B f)) fs ->
  forall pre, Forall (good dt) pre ->
  exists parts, product_parts pre fs (map B fs) = Ok parts /\ Forall (good dt) parts /\
    forall xs, U parts xs <-> exists a r, xs = a ++ r /\ Forall2 inb (flats pre) a /\ Bnd (flats fs) r.
Proof.
  intros Hfl. induction 1 as [|f fs [Gf (parts & EB & Gp & HU)] Hfs IH]; intros pre Gpre.
  - exists []. split; [reflexivity|]. split; [constructor|]. intros xs. split.
    + intros (p & [] & _).
    + intros (a & r & -> & _ & [_ (b & x & [] & _)]).
  - cbn [map product_parts]. rewrite EB. cbn [bind].
    assert (Gfs : Forall (good dt) fs) by (eapply Forall_impl; [|exact Hfs]; intros g [Hg _]; exact Hg).
    assert (EM : mapM (fun p => mk_prod (pre ++ p :: fs)) parts = Ok (map (fun p => Prod dt (pre ++ p :: fs)) parts)).
    { clear HU EB. induction Gp as [|p ps Hp _ IHp]; [reflexivity|]. cbn [mapM map].
      rewrite (mk_prod_ok dt); [cbn [bind]; rewrite IHp; reflexivity|exact Hfl| |destruct pre; discriminate].
      assert (G : Forall (good dt) (pre ++ p :: fs)) by (apply Forall_app; split; [exact Gpre|now constructor]).
      eapply Forall_impl; [|exact G]. intros g (_ & H1 & H2). auto. }
    rewrite EM. cbn [bind firstn].
    destruct (IH (pre ++ [f])) as (rest & ER & Gr & HR).
    { apply Forall_app. split; [exact Gpre|now constructor]. }
    rewrite ER. cbn [bind]. eexists. split; [reflexivity|]. split.
    { apply Forall_app. split; [|exact Gr]. apply Forall_map. eapply Forall_impl; [|exact Gp].
      intros p Hp. apply good_prod; [exact Hfl|]. apply Forall_app. split; [exact Gpre|now constructor]. }
    intros xs.
    assert (HX : U (map (fun p => Prod dt (pre ++ p :: fs)) parts ++ rest) xs <->
                 (exists a c e, xs = a ++ c ++ e /\ Forall2 inb (flats pre) a /\ Bnd (flat f) c /\ Forall2 inb (flats fs) e) \/
                 U rest xs).
    { split.
      - intros (p & Hin & Hs). apply in_app_or in Hin as [Hin|Hin]; [|right; exists p; auto].
        apply in_map_iff in Hin as (q & <- & Hq). apply in_prod_set in Hs. rewrite flats_app in Hs.
        apply Forall2_app_inv_l in Hs as (a & ce & Ha & Hce & ->).
        unfold flats in Hce. cbn in Hce. apply Forall2_app_inv_l in Hce as (c & e & Hc & He & ->).
        left. exists a, c, e. repeat split; try assumption; apply HU; exists q; split; try assumption; now apply in_set_flat.
      - intros [(a & c & e & -> & Ha & Hc & He)|(p & Hin & Hs)].
        + apply HU in Hc as (q & Hq & Hs). exists (Prod dt (pre ++ q :: fs)). split; [apply in_or_app; left; now apply in_map with (f := fun p => Prod dt (pre ++ p :: fs))|].
          apply in_prod_set. rewrite flats_app. apply Forall2_app; [exact Ha|]. unfold flats. cbn.
          apply Forall2_app; [now apply in_set_flat|exact He].
        + exists p. split; [now apply in_or_app; right|exact Hs]. }
    rewrite HX, HR. unfold flats at 4. cbn [map concat]. fold (flats fs).
    setoid_rewrite Bnd_app. setoid_rewrite flats_app.
    assert (F1 : flats [f] = flat f) by (unfold flats; cbn; apply app_nil_r). rewrite F1.
    split.
    + intros [(a & c & e & -> & Ha & Hc & He)|(ac & e & -> & Hac & He)].
      * exists a, (c ++ e). split; [reflexivity|]. split; [exact Ha|]. exists c, e. auto.
      * apply Forall2_app_inv_l in Hac as (a & c & Ha & Hc & ->). exists a, (c ++ e). rewrite app_assoc. split; [reflexivity|].
        split; [exact Ha|]. exists c, e. auto.
    + intros (a & r & -> & Ha & c & e & -> & [[Hc He]|[Hc He]]).
      * left. exists a, c, e. auto.
      * right. exists (a ++ c), e. rewrite app_assoc. split; [reflexivity|]. split; [now apply Forall2_app|exact He].
Qed.

Lemma point_Bnd l c : l <> [] -> (c = l <-> Bnd (map (fun c => (c, c)) l) c).
Proof.
  intros Hne. split.
  - intros ->. split.
    + clear Hne. induction l; constructor; [unfold inb; cbn; lra|assumption].
    + destruct l as [|x l]; [congruence|]. exists (x, x), x. split; [now left|auto].
  - intros [F _]. clear Hne. revert c F. induction l as [|x l IH]; intros c F; inversion F as [|? y ? ys H1 H2]; subst; [reflexivity|].
    f_equal; [unfold inb in H1; cbn in H1; lra|now apply IH].
Qed.

Lemma simple_boundary_ok dt f : good dt f -> no_empty_point f -> match f with Interval _ _ _ | Point _ => True | _ => False end ->
  boundary_ok dt f (simple_boundary f).
Proof.
  intros (V & N & D) NE Hs. destruct f as [dt' l u|p|dt' bs|dt' fs]; try contradiction.
  - cbn in D. subst dt'. destruct V as [Vf Vl]. unfold simple_boundary, mk_point. cbn [a_dtype]. rewrite Vf. cbn [bind].
    eexists. split; [reflexivity|]. split.
    { repeat constructor; cbn; auto; unfold ndims; cbn; lia. }
    intros xs. split.
    + intros (p & [<-|[<-|[]]] & Hs'); cbn in Hs'; subst xs; (split; [constructor; [unfold inb; cbn; lra|constructor]|]);
        (eexists; eexists; split; [now left|cbn; auto]).
    + intros [F (b & x & Hin & E)]. inversion F as [|? y ? ys H1 H2]; subst. inversion H2; subst. cbn in Hin.
      destruct Hin as [[= <- <-]|[]]. cbn in E. destruct E as [->| ->].
      * exists (Point (mkarray dt [] [l])). cbn. auto.
      * exists (Point (mkarray dt [] [u])). cbn. auto.
  - cbn. eexists. split; [reflexivity|]. split; [constructor; [exact (conj V (conj N D))|constructor]|].
    intros xs. cbn [flat]. rewrite <- point_Bnd by exact NE. split.
    + intros (q & [<-|[]] & Hq). exact Hq.
    + intros ->. exists (Point p). split; [now left|reflexivity].
Qed.

Lemma box_factor_good dt b : is_floating dt = true -> fst b <= snd b -> good dt (box_factor dt b) /\ no_empty_point (box_factor dt b) /\
  match box_factor dt b with Interval _ _ _ | Point _ => True | _ => False end /\ flat (box_factor dt b) = [b].
Proof.
  intros Hf H. unfold box_factor. destruct b as [l u]. cbn [fst snd] in *. destruct (Reqb_spec l u) as [->|E].
  - repeat split; cbn; auto; try discriminate; unfold ndims; cbn; lia.
  - repeat split; cbn; auto; unfold ndims; cbn; lia.
Qed.

Lemma flats_box dt bs : is_floating dt = true -> Forall (fun b => fst b <= snd b) bs -> flats (box_factors dt bs) = bs.
Proof.
  intros Hf. induction 1 as [|b bs H _ IH]; [reflexivity|]. unfold flats, box_factors in *. cbn [map concat].
  destruct (box_factor_good dt b Hf H) as (_ & _ & _ & ->). rewrite IH. reflexivity.
Qed.


Lemma boundary_general d : valid d -> no_empty_point d ->
  exists parts, boundary d = Ok parts /\ (forall xs, U parts xs <-> Bnd (flat d) xs) /\
   ((ndims d <= 1)%nat -> Forall (good (ddtype d)) parts).
Proof.
  induction d as [dt l u|p|dt bs|dt fs IH] using domain_ind'; intros V NE.
  - destruct (simple_boundary_ok dt (Interval dt l u)) as (parts & E & G & H); [repeat split; [apply V|apply V|unfold ndims; cbn; lia]|exact I|exact I|].
    exists parts. auto.
  - exists [Point p]. split; [reflexivity|]. split.
    + intros xs. cbn [flat]. rewrite <- point_Bnd by exact NE. split; [intros (q & [<-|[]] & Hq); exact Hq|intros ->; exists (Point p); split; [now left|reflexivity]].
    + intros N. constructor; [|constructor]. repeat split; try apply V. exact N.
  - destruct V as [Vf Vb].
    assert (Vb' : Forall (fun b => fst b <= snd b) bs) by (eapply Forall_impl; [|exact Vb]; intros [l u] Hlu; exact Hlu).
    destruct (product_parts_ok dt simple_boundary (box_factors dt bs) Vf) with (pre := @nil domain) as (parts & E & G & H).
    { clear Vb NE. induction Vb' as [|b bs Hb _ IHb]; [constructor|]. constructor; [|exact IHb].
      destruct (box_factor_good dt b Vf Hb) as (g1 & g2 & g3 & g4). split; [exact g1|]. now apply simple_boundary_ok. }
    { constructor. }
    exists parts. split; [exact E|]. split; [|intros _; exact G]. intros xs. rewrite H. rewrite flats_box by assumption. cbn [flat].
    split.
    + intros (a & r & -> & Ha & Hr). inversion Ha. exact Hr.
    + intros Hr. exists [], xs. repeat split; try apply Hr. constructor.
  - destruct V as (Vf & Va & Vg). apply all_true_Forall in Va. cbn in NE. apply all_true_Forall in NE.
    destruct (product_parts_ok dt boundary fs Vf) with (pre := @nil domain) as (parts & E & G & H).
    { clear Vf. induction IH as [|f fs Hf _ IHfs]; [constructor|]. constructor.
      - inversion Va; subst. inversion NE; subst. inversion Vg as [|? ? [g1 g2] _]; subst.
        split; [repeat split; assumption|]. destruct (Hf ltac:(assumption) ltac:(assumption)) as (parts & E & HU & HG).
        exists parts. auto.
      - apply IHfs; first [now inversion NE|now inversion Va|now inversion Vg]. }
    { constructor. }
    exists parts. split; [exact E|]. split; [|intros _; exact G]. intros xs. rewrite H.
    split.
    + intros (a & r & -> & Ha & Hr). inversion Ha. exact Hr.
    + intros Hr. exists [], xs. repeat split; try apply Hr. constructor.
Qed.

Lemma frontier_ext (S T : list R -> Prop) xs : (forall ys, S ys <-> T ys) -> frontier S xs <-> frontier T xs.
Proof.
  intros H. unfold frontier. split; intros F eps He; destruct (F eps He) as [[ys [N Y]] [zs [M Z]]]; (split; [exists ys; split; [exact N|now apply H]|exists zs; split; [exact M|]]); rewrite ?H in *; firstorder.
Qed.

Lemma boundary_is_frontier d : valid d -> no_empty_point d ->
  exists parts, boundary d = Ok parts /\ forall xs, (exists p, In p parts /\ in_set p xs) <-> frontier (in_set d) xs.
Proof.
  intros V NE. destruct (boundary_general d V NE) as (parts & E & H & _). exists parts. split; [exact E|].
  intros xs. rewrite (frontier_ext _ _ xs (in_set_flat d)), frontier_flat. apply H.
Qed.
