(** Model of repeated evaluation of the Matérn covariance functions and their
    derivatives with the state they share: [covfuncs/linfuncops/diffops/_matern.py].

    A session has one Matérn covariance function and any number of covariance
    functions derived from it.  All of them hold a reference to the scale factors of the
    kernel ([self._matern_scale_factors = self._matern._scale_factors]: 35, 153, 286, 375,
    456, 531), and each of them caches the quantities computed on first use
    ([functools.cached_property]).  When the lengthscales are an array, the scale factors are
    one array object, cached by the kernel, that in-place operators update; when the lengthscales are a
    scalar they are a number, and in-place operators rebind the local name.  One pair of points per
    evaluation; jax and keops evaluations use the same properties. *)
From Coq Require Import List Reals Bool Arith.
From Verif Require Import Base NdArray PolyModel PolyClassModel FunExprModel KernelModel.
Import ListNotations.
Open Scope R_scope.

(** The kernel and the derived objects, with the polynomials stored by the constructors. *)
Inductive obj :=
| BMat
| BDir (dir : array) (reverse : bool) (poly : pypoly)
| BDirDir (dir0 dir1 : array) (neg_poly_deriv poly_diff : pypoly)
| BUDirDir (dir0 dir1 : array) (poly : pypoly)
| BULap (w : array) (reverse : bool) (poly : pypoly)
| BULapLap (w0 w1 : array) (poly : pypoly)
| BUDirLap (dir w : array) (reverse : bool) (poly : pypoly).
Definition cov_of (m : matern) (o : obj) : cov :=
  match o with
  | BMat => CMat m
  | BDir v r q => CMatDir m v r q
  | BDirDir v0 v1 a b => CMatDirDir m v0 v1 a b
  | BUDirDir v0 v1 q => CUMatDirDir m v0 v1 q
  | BULap w r q => CUMatLap m w r q
  | BULapLap w0 w1 q => CUMatLapLap m w0 w1 q
  | BUDirLap v w r q => CUMatDirLap m v w r q
  end.

(** A cached array: the shared array object itself, or an array of its own. *)
Inductive cached := Shared | Own (a : array).
Record cache := Cache { k_sd : option cached; k_sd0 : option array; k_sd1 : option array; k_num : option R }.
Definition no_cache : cache := Cache None None None None.
(** [sf] is the content of the shared array (or the value of the scale factors). *)
Record state := State { sf : array; caches : nat -> cache }.
Definition set_cache (st : state) (k : nat) (c : cache) : state :=
  State (sf st) (fun j => if (j =? k)%nat then c else caches st j).
Definition set_sf (st : state) (a : array) : state := State a (caches st).

Definition opt {A} (o : option A) (d : A) : A := match o with Some a => a | None => d end.

Section Session.
(** [shared] tells whether the scale factors are an array object. *)
Variables (m : matern) (shared : bool) (objs : nat -> obj).
Notation sh := (mt_shape m).

Definition sdiffs (s x0 x1 : array) : array := fun i => vdiff x0 x1 i * s i.

(** [HalfIntegerMatern_Identity_DirectionalDerivative._scaled_direction] (54-62): the value of the property
    as of this call, and the state it leaves *)
Definition get_sd (st : state) (k : nat) (dir : array) (reverse : bool) : state * cached :=
  match k_sd (caches st k) with
  | Some c => (st, c)
  | None =>
      let new := fun i => let s := sf st i * dir i in if reverse then s else s * -1 in
      let c := if shared then Shared else Own new in
      let old := caches st k in
      let st' := set_cache st k (Cache (Some c) (k_sd0 old) (k_sd1 old) (k_num old)) in
      (if shared then set_sf st' new else st', c)
  end.
Definition deref (st : state) (c : cached) : array := match c with Shared => sf st | Own a => a end.
(** [..._DirectionalDerivative_DirectionalDerivative]: [_scaled_direction0], [_scaled_direction1] (169-175)
    and [_directions_inprod] (177-179) *)
Definition get_sd0 (st : state) (k : nat) (dir0 : array) : state * array :=
  match k_sd0 (caches st k) with
  | Some a => (st, a)
  | None => let a := fun i => sf st i * dir0 i in let old := caches st k in
            (set_cache st k (Cache (k_sd old) (Some a) (k_sd1 old) (k_num old)), a)
  end.
Definition get_sd1 (st : state) (k : nat) (dir1 : array) : state * array :=
  match k_sd1 (caches st k) with
  | Some a => (st, a)
  | None => let a := fun i => sf st i * dir1 i in let old := caches st k in
            (set_cache st k (Cache (k_sd old) (k_sd0 old) (Some a) (k_num old)), a)
  end.
(** A cached number computed by [f] from the current scale factors: [_scaled_directions_prod] (294-298),
    [_output_scale_factor] (397-401 and 470-474) *)
Definition get_num (st : state) (k : nat) (f : array -> R) : state * R :=
  match k_num (caches st k) with
  | Some r => (st, r)
  | None => let r := f (sf st) in let old := caches st k in
            (set_cache st k (Cache (k_sd old) (k_sd0 old) (k_sd1 old) (Some r)), r)
  end.
Definition get_inprod (st : state) (k : nat) (dir0 dir1 : array) : state * R :=
  match k_num (caches st k) with
  | Some r => (st, r)
  | None =>
      let '(st1, s0) := get_sd0 st k dir0 in
      let '(st2, s1) := get_sd1 st1 k dir1 in
      get_num st2 k (fun _ => bsum sh (fun i => s0 i * s1 i))
  end.
(** [..._DirectionalDerivative_WeightedLaplacian._scaled_direction] (548-556): a new array *)
Definition get_sdl (st : state) (k : nat) (dir w : array) (reverse : bool) : state * cached :=
  match k_sd (caches st k) with
  | Some c => (st, c)
  | None => let a := fun i => let s := w i * sf st i ^ 3 * dir i in if reverse then s * -1 else s in
            let old := caches st k in
            (set_cache st k (Cache (Some (Own a)) (k_sd0 old) (k_sd1 old) (k_num old)), Own a)
  end.

(** [k(x0, x1)]: [Matern] (probnum and _matern.py:15-46), 64-86, 181-203, 300-318, 403-410, 476-483, 558-571 *)
Definition eval (st : state) (k : nat) (x0 x1 : array) : state * R :=
  let d := sdiffs (sf st) x0 x1 in
  let r := bnorm sh d in
  match objs k with
  | BMat => (st, matern_profile (mt_nu m) r)
  | BDir dir reverse poly =>
      let '(st', c) := get_sd st k dir reverse in
      (st', py_eval poly r * exp (- r) * bsum sh (fun i => deref st' c i * d i))
  | BDirDir dir0 dir1 npd pd =>
      let '(st1, s0) := get_sd0 st k dir0 in
      let '(st2, s1) := get_sd1 st1 k dir1 in
      let '(st3, ip) := get_inprod st2 k dir0 dir1 in
      (st3, (ip * py_eval npd r - bsum sh (fun i => s0 i * d i) * bsum sh (fun i => s1 i * d i) * py_eval pd r) * exp (- r))
  | BUDirDir dir0 dir1 poly =>
      let '(st', c) := get_num st k (fun s => squeeze sh (fun i => dir0 i * dir1 i * s i ^ 2)) in
      (st', c * py_eval poly r * exp (- r))
  | BULap w _ poly =>
      let '(st', c) := get_num st k (fun s => squeeze sh (fun i => w i * s i * s i)) in
      (st', c * exp (- r) * py_eval poly r)
  | BULapLap w0 w1 poly =>
      let '(st', c) := get_num st k (fun s => squeeze sh (fun i => w0 i * w1 i * s i ^ 4)) in
      (st', c * exp (- r) * py_eval poly r)
  | BUDirLap dir w reverse poly =>
      let '(st', c) := get_sdl st k dir w reverse in
      (st', exp (- r) * py_eval poly r * bsum sh (fun i => deref st' c i * d i))
  end.
(** [k(x0, None)] (_matern.py:16-20, 65-69, 182-187, 301-306, 403-410, 476-483, 559-563) *)
Definition eval_none (st : state) (k : nat) (x0 : array) : state * R :=
  match objs k with
  | BMat => (st, matern_profile (mt_nu m) 0)
  | BDir _ _ _ => (st, 0)
  | BDirDir dir0 dir1 npd _ => let '(st', ip) := get_inprod st k dir0 dir1 in (st', ip * coeff0 npd)
  | BUDirDir dir0 dir1 poly =>
      let '(st', c) := get_num st k (fun s => squeeze sh (fun i => dir0 i * dir1 i * s i ^ 2)) in (st', c * coeff0 poly)
  | BULap w _ poly =>
      let '(st', c) := get_num st k (fun s => squeeze sh (fun i => w i * s i * s i)) in (st', c * exp (- 0) * py_eval poly 0)
  | BULapLap w0 w1 poly =>
      let '(st', c) := get_num st k (fun s => squeeze sh (fun i => w0 i * w1 i * s i ^ 4)) in (st', c * exp (- 0) * py_eval poly 0)
  | BUDirLap _ _ _ _ => (st, 0)
  end.
(** A history of evaluations of the objects, and the values they return. *)
Inductive request := Ev (k : nat) (x0 x1 : array) | EvNone (k : nat) (x0 : array).
Definition step (st : state) (q : request) : state * R :=
  match q with Ev k x0 x1 => eval st k x0 x1 | EvNone k x0 => eval_none st k x0 end.
Fixpoint run (st : state) (qs : list request) : state * list R :=
  match qs with
  | [] => (st, [])
  | q :: qs => let '(st1, r) := step st q in let '(st2, rs) := run st1 qs in (st2, r :: rs)
  end.
(** The state before the first evaluation. *)
Definition start : state := State (mt_scale m) (fun _ => no_cache).
End Session.
