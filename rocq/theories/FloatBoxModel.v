(** Model of [Box] ([domains/_box.py]) in IEEE 754 arithmetic, with the intervals of [FloatGridModel]: bounds, factors,
    membership, volume and uniform grids in double precision.
    Simplified: the bounds are an array of doubles of shape (D, 2), given as the list of its rows (other shapes and
    types are in [DomainModel.mk_box]). *)
From Coq Require Import List Bool Arith ZArith.
From Coq.Floats Require Import SpecFloat.
From Verif Require Import Base FloatGridModel.
Import ListNotations.

Notation frow := (spec_float * spec_float)%type.
(** A factor of a box (_box.py:43-50): an interval, or a point where the bounds are equal *)
Inductive ffactor := FSide (d : finterval) | FPoint (p : spec_float).
Definition fbox_factor (b : frow) : ffactor :=
  if negb (SFeqb (fst b) (snd b)) then FSide (FInterval (fst b) (snd b)) else FPoint (fst b).
(** [Box.__init__] (_box.py:18-50) *)
Definition mk_fbox (rows : list frow) : result (list frow) :=
  if negb (forallb (fun b => SFleb (fst b) (snd b)) rows) then Err ValueError else Ok rows.
(** [Box.__contains__] (_box.py:71-77) for a vector *)
Definition fbox_contains (rows : list frow) (x : list spec_float) : bool :=
  if negb (length x =? length rows)%nat then false
  else forallb (fun '(b, v) => SFleb (fst b) v && SFleb v (snd b)) (combine rows x).

(** The volume of a factor (_interval.py:51-53, _point.py:22-24) *)
Definition ffactor_volume (f : ffactor) : spec_float :=
  match f with FSide d => fvolume d | FPoint _ => S754_zero false end.
(** [CartesianProduct.volume] (_cartesian_product.py:84-88): the product, from the left *)
Definition fbox_volume (rows : list frow) : result spec_float :=
  match map (fun b => ffactor_volume (fbox_factor b)) rows with
  | [] => Err TypeError
  | v :: vs => Ok (fold_left fmul vs v)
  end.

(** The number of sides that are not collapsed (_box.py:39-40) *)
Definition fn_interior (rows : list frow) : nat := length (filter (fun b => negb (SFeqb (fst b) (snd b))) rows).
(** Values for these sides, [dflt] for the others (_box.py:91-96) *)
Fixpoint fscatter {A} (rows : list frow) (vals : list A) (dflt : A) : list A :=
  match rows with
  | [] => []
  | b :: rows' =>
      if SFeqb (fst b) (snd b) then dflt :: fscatter rows' vals dflt
      else match vals with
           | v :: vals' => v :: fscatter rows' vals' dflt
           | [] => dflt :: fscatter rows' [] dflt
           end
  end.
(** The grid of one factor (_box.py:98-104) *)
Definition fget_grid (f : ffactor) (num_points : nat) (inset : spec_float) : result (list spec_float) :=
  match f with
  | FSide d => fgrid d [num_points] inset
  | FPoint p => if (num_points =? 1)%nat then Ok [p] else Err AssertionError
  end.
(** [Box.uniform_grid] (_box.py:81-114): the factors of the grid; [shape] resolved to a tuple, one inset for all sides *)
Definition fbox_grid (rows : list frow) (shp : list nat) (inset : spec_float) : result (list (list spec_float)) :=
  if negb (length shp =? fn_interior rows)%nat then Err TypeError
  else mapM (fun '(f, (n, i)) => fget_grid f n i)
         (combine (map fbox_factor rows)
            (combine (fscatter rows shp 1%nat) (fscatter rows (repeat inset (fn_interior rows)) (S754_zero false)))).
