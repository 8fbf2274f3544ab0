(** Gaussian process regression, stated for a whole batch of data at once. *)
From mathcomp Require Import all_ssreflect all_algebra.
From Verif Require Import Base Block2Spec NormalModel CondModel.
Set Implicit Arguments. Unset Strict Implicit. Unset Printing Implicit Defensive.
Import GRing.Theory Num.Theory.
Local Open Scope ring_scope.

Section Spec.
Variables (F : realFieldType) (X : Type).
Implicit Types (l : fn F X -> F) (D : funop F X).

(** Functionals that are linear on the functions [V], a linear space. *)
Definition linear_on (V : fn F X -> Prop) l : Prop :=
  [/\ forall f g, f =1 g -> l f = l g,
      forall f g, V f -> V g -> l (fun x => f x + g x) = l f + l g &
      forall t f, V f -> l (fun x => t * f x) = t * l f].
Definition component p (L : functl F X p) (i : 'I_p) : fn F X -> F := fun f => L f i 0.

(** The functions that occur: the linear space generated by the prior mean and by the
    functionals of the prior covariance [k] in one argument, closed under the operators. *)
Inductive reached (m : fn F X) (k : X -> fn F X) (Sf : (fn F X -> F) -> Prop) (So : funop F X -> Prop) : fn F X -> Prop :=
| reached_mean : reached m k Sf So m
| reached_cov l : Sf l -> reached m k Sf So (fun x => l (k x))
| reached_add f h : reached m k Sf So f -> reached m k Sf So h -> reached m k Sf So (fun x => f x + h x)
| reached_scale t f : reached m k Sf So f -> reached m k Sf So (fun x => t * f x)
| reached_op D f : So D -> reached m k Sf So f -> reached m k Sf So (D f)
| reached_ext f h : reached m k Sf So f -> f =1 h -> reached m k Sf So h.
(** What is assumed about the prior mean [m], the prior covariance [k] and the functionals
    and operators used: a family of functionals that are linear on the functions above,
    contains the point evaluations, is closed under composition with the operators, and
    for which all covariance matrices make sense (symmetric positive semi-definite).
    Functionals need not be linear, or make sense, on all functions: derivatives do not. *)
Record admissible (m : fn F X) (k : X -> fn F X) (Sf : (fn F X -> F) -> Prop) (So : funop F X -> Prop) : Prop := {
  ad_lin : forall l, Sf l -> linear_on (reached m k Sf So) l;
  ad_same : forall l l', Sf l -> (forall f, l f = l' f) -> Sf l';
  ad_eval : forall x, Sf (fun f => f x);
  ad_comp : forall l D, Sf l -> So D -> Sf (fun f => l (D f));
  ad_psd : forall n (ls : 'I_n -> fn F X -> F), (forall i, Sf (ls i)) ->
    possemidef (\matrix_(i, j) ls i (fun x => ls j (k x))) }.

(** Data: functionals of the original process, observed values, noise. *)
Record data n := Data { d_L : functl F X n; d_Y : 'cV[F]_n; d_b : 'cV[F]_n; d_N : 'M[F]_n }.
Definition noise_covm p (b : option (normal F p)) : 'M[F]_p := if b is Some c then ncov c else 0.
Definition noise_meanv p (b : option (normal F p)) : 'cV[F]_p := if b is Some c then nmean c else 0.
(** An observation made after the operators [E] were applied. *)
Definition data_of (E : funop F X) (o : obs F X) : data (o_dim o) :=
  Data (fun f => o_L o (E f)) (o_Y o) (noise_meanv (o_b o)) (noise_covm (o_b o)).
(** Two batches with independent noise. *)
Definition stack m n (d : data m) (e : data n) : data (m + n) :=
  Data (fun f => col_mx (d_L d f) (d_L e f)) (col_mx (d_Y d) (d_Y e)) (col_mx (d_b d) (d_b e))
       (block_mx (d_N d) 0 0 (d_N e)).

Section Posterior.
Variables (m : fn F X) (k : X -> fn F X) (E : funop F X) (n : nat) (d : data n).
(** Gram matrix, cross-covariance, posterior mean and covariance of [E f]. *)
Definition dgram : 'M[F]_n := \matrix_(i, j) d_L d (fun x => d_L d (k x) j 0) i 0 + d_N d.
Definition dcross (x : X) : 'rV[F]_n := \row_j E (fun x' => d_L d (k x') j 0) x.
Definition dres : 'cV[F]_n := d_Y d - d_L d m - d_b d.
Definition post_mean (x : X) : F := E m x + (dcross x *m invmx dgram *m dres) 0 0.
Definition prior_cov (x y : X) : F := E (fun x' => E (k x') y) x.
Definition post_cov (x y : X) : F := prior_cov x y - (dcross x *m invmx dgram *m (dcross y)^T) 0 0.
End Posterior.

(** All the data and operators in a history of events. *)
Record summary := Summary { s_data : option {n & data n}; s_op : funop F X }.
Definition s_start : summary := Summary None id.
Definition s_step (s : summary) (e : event F X) : summary :=
  match e with
  | Cond o => Summary (Some (match s_data s with
                             | None => existT data _ (data_of (s_op s) o)
                             | Some (existT n d) => existT data _ (stack d (data_of (s_op s) o))
                             end)) (s_op s)
  | Appl D => Summary (s_data s) (fun f => D (s_op s f))
  end.
Definition summarise (es : seq (event F X)) : summary := foldl s_step s_start es.

(** Posterior mean and covariance after a history, from the summary. *)
Definition spec_mean (g : gp F X) (s : summary) (x : X) : F :=
  match s_data s with Some (existT n d) => post_mean (gmean g) (gcov g) (s_op s) d x | None => s_op s (gmean g) x end.
Definition spec_cov (g : gp F X) (s : summary) (x y : X) : F :=
  match s_data s with Some (existT n d) => post_cov (gcov g) (s_op s) d x y | None => prior_cov (gcov g) (s_op s) x y end.
Definition spec_gram_unit (g : gp F X) (s : summary) : Prop :=
  match s_data s with Some (existT n d) => dgram (gcov g) d \in unitmx | None => True end.

(** Several observations as one, with independent noise. *)
Definition stack_obs (o1 o2 : obs F X) : obs F X :=
  @Obs F X (o_dim o1 + o_dim o2) (fun f => col_mx (o_L o1 f) (o_L o2 f)) (col_mx (o_Y o1) (o_Y o2))
    (Some (Normal (col_mx (noise_meanv (o_b o1)) (noise_meanv (o_b o2)))
                  (block_mx (noise_covm (o_b o1)) 0 0 (noise_covm (o_b o2))))).
Definition batch (o : obs F X) (os : seq (obs F X)) : obs F X := foldl stack_obs o os.
(** Observation of the process at finitely many points. *)
Definition point_obs n (xs : 'I_n -> X) (Y : 'cV[F]_n) (b : option (normal F n)) : obs F X :=
  @Obs F X n (fun f => \col_i f (xs i)) Y b.
Definition kmat (k : X -> fn F X) p q (xs : 'I_p -> X) (ys : 'I_q -> X) : 'M[F]_(p, q) := \matrix_(i, j) k (xs i) (ys j).

(** Events that use admissible functionals and operators, and noise with a
    covariance matrix. *)
Definition good_event (Sf : (fn F X -> F) -> Prop) (So : funop F X -> Prop) (e : event F X) : Prop :=
  match e with
  | Cond o => (forall i, Sf (component (@o_L _ _ o) i)) /\ possemidef (noise_covm (o_b o))
  | Appl D => So D
  end.
Fixpoint good_events Sf So (es : seq (event F X)) : Prop :=
  match es with [::] => True | e :: es' => good_event Sf So e /\ good_events Sf So es' end.
(** All observations are noisy: no combination of the noise has variance zero. *)
Definition noisy_event (e : event F X) : Prop := if e is Cond o then posdef (noise_covm (o_b o)) else True.
Fixpoint noisy_events (es : seq (event F X)) : Prop :=
  match es with [::] => True | e :: es' => noisy_event e /\ noisy_events es' end.
End Spec.
