(** Model of [functions/_truncated_gmm.py]: the density of a mixture of truncated
    Gaussians on an interval.

    Floats are real numbers.  Divisions by zero (a zero standard deviation, an interval of
    length zero) give nan in NumPy and are not modelled: every theorem excludes them. *)
From Coq Require Import List Arith ZArith Reals.
From Coquelicot Require Import Coquelicot.
From Verif Require Import Base NdArray NdData DomainModel CrossModel ShapedModel.
Import ListNotations.
Local Open Scope R_scope.

(** The standard normal density, and its distribution function ([scipy.stats.norm.cdf]),
    which is 1/2 at 0. *)
Definition std_density (t : R) : R := / sqrt (2 * PI) * exp (- t ^ 2 / 2).
Definition norm_cdf (x : R) : R := 1 / 2 + RInt std_density 0 x.

(** [np.mean(a, axis=-1)]; the mean of no numbers is nan, not modelled; AxisError is a
    ValueError. *)
Definition mean_last (a : nd RF) : result (nd RF) :=
  match rev (nshape a) with
  | [] => Err ValueError
  | 0%nat :: _ => Err Unmodelled
  | n :: rb => Ok (Nd (rev rb) (fun i => @fdiv RF (@fsum RF (map (fun k => nat_ a (i ++ [k])) (seq 0 n))) (INR n)))
  end.
(** [x\[..., None\]] *)
Definition last_axis (x : nd RF) : nd RF := Nd (nshape x ++ [1%nat]) (fun l => nat_ x (removelast l)).
Definition mbin (op : R -> R -> R) (a b : nd RF) : result (nd RF) := @nd_bin RF op a b.
Definition mmap (f : R -> R) (a : nd RF) : nd RF := nd_map f a.

Record mixture := mkmix { mx_lo : R; mx_hi : R; mx_means : nd RF; mx_stds : nd RF }.
(** [_gaussian_pdfs] (30-35) *)
Definition gaussian_pdfs (m : mixture) (x : nd RF) : result (nd RF) :=
  bind (mbin Rminus (last_axis x) (mx_means m)) (fun d =>
  bind (mbin Rdiv d (mx_stds m)) (fun u =>
  mbin Rmult (mmap (fun s => 1 / (sqrt (2 * PI) * s)) (mx_stds m)) (mmap (fun t => exp (- (1 / 2) * t ^ 2)) u))).
(** [_Zs] (37-41), [self._domain\[i\]] by [DomainModel.interval_getitem] *)
Definition bound (m : mixture) (i : Z) : result R :=
  match interval_getitem (mx_lo m) (mx_hi m) i with GotNumber b => Ok b | GotException _ => Err TypeError end.
Definition cdf_at (m : mixture) (i : Z) : result (nd RF) :=
  bind (bound m i) (fun b =>
  bind (mbin Rdiv (mmap (fun t => b - t) (mx_means m)) (mx_stds m)) (fun u => Ok (mmap norm_cdf u))).
Definition mix_Zs (m : mixture) : result (nd RF) :=
  bind (cdf_at m 1) (fun c1 => bind (cdf_at m 0) (fun c0 => mbin Rminus c1 c0)).
(** [_evaluate] (43-44) *)
Definition mix_eval (m : mixture) (x : nd RF) : result (nd RF) :=
  bind (gaussian_pdfs m x) (fun p => bind (mix_Zs m) (fun z => bind (mbin Rdiv p z) mean_last)).
(** [__init__] (13-28) *)
Definition mk_mixture (d : domain_like) (means stds : nd RF) : result (mixture * func RF) :=
  bind (asdomain d) (fun dom =>
  match dom with
  | Interval _ l u => let m := mkmix l u means stds in Ok (m, mkfn [] [] (mix_eval m) None)
  | _ => Err TypeError
  end).
