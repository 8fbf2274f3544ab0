(** Model of [Interval] ([domains/_interval.py]) in IEEE 754 arithmetic: bounds, membership, volume and uniform grids
    with the numbers of [Coq.Floats.SpecFloat] in double precision.
    Outside the repository: [np.linspace], as in NumPy (function_base.py), one rounded operation at a time. *)
From Coq Require Import List Bool Arith ZArith.
From Coq.Floats Require Import SpecFloat.
From Verif Require Import Base.
Import ListNotations.

Notation fadd := (SFadd 53 1024).
Notation fsub := (SFsub 53 1024).
Notation fmul := (SFmul 53 1024).
Notation fdiv := (SFdiv 53 1024).

(** [Interval.__init__] (_interval.py:15-29): the two bounds, of type double *)
Record finterval := FInterval { fi_lower : spec_float; fi_upper : spec_float }.
Definition mk_finterval (l u : spec_float) : result finterval :=
  if SFltb u l then Err ValueError else Ok (FInterval l u).
(** [Interval.volume] (_interval.py:51-53) *)
Definition fvolume (d : finterval) : spec_float := fsub (fi_upper d) (fi_lower d).
(** [Interval.__contains__] (_interval.py:62-68) for a number *)
Definition fcontains (d : finterval) (x : spec_float) : bool := SFleb (fi_lower d) x && SFleb x (fi_upper d).

(** A count as a number of type double *)
Definition of_nat (k : nat) : spec_float := SpecFloat.binary_normalize 53 1024 (Z.of_nat k) 0 false.
(** [np.linspace(a, b, n)]: the numbers 0, ..., n-1 times the step, plus the first bound; the last point is
    the second bound.  If the step underflows to 0 the numbers are divided before they are multiplied. *)
Definition flinspace (a b : spec_float) (n : nat) : list spec_float :=
  let delta := fsub b a in
  match n with
  | O => []
  | 1%nat => [fadd (fmul (of_nat 0) delta) a]
  | S m =>
      let step := fdiv delta (of_nat m) in
      let y k := if SFeqb step (S754_zero false) then fmul (fdiv (of_nat k) (of_nat m)) delta else fmul (of_nat k) step in
      map (fun k => fadd (y k) a) (seq 0 m) ++ [b]
  end.
(** [Interval.uniform_grid] (_interval.py:73-83); [shape] resolved to a tuple *)
Definition fgrid (d : finterval) (shp : list nat) (inset : spec_float) : result (list spec_float) :=
  match shp with
  | [n] => Ok (flinspace (fadd (fi_lower d) inset) (fsub (fi_upper d) inset) n)
  | _ => Err AssertionError
  end.
