(** Specification of domains: the sets they stand for and elementary topology of
    R^n (points are lists of coordinates). *)
From Coq Require Import List Reals.
From Verif Require Import Base NdArray DomainModel.
Import ListNotations.
Open Scope R_scope.

(** Cartesian product of sets of coordinate lists. *)
Definition in_product (sets : list (list R -> Prop)) (xs : list R) : Prop :=
  exists parts, xs = concat parts /\ List.Forall2 (fun S ys => S ys) sets parts.

(** The set of points of a domain. *)
Fixpoint in_set (d : domain) : list R -> Prop :=
  match d with
  | Interval _ l u => fun xs => exists x, xs = [x] /\ l <= x <= u
  | Point p => fun xs => xs = a_data p
  | Box _ bs => fun xs => List.Forall2 (fun '(l, u) x => l <= x <= u) bs xs
  | Prod _ fs => in_product (map in_set fs)
  end.

(** Balls in the maximum norm, and the topological boundary: every ball around
    the point meets the set and its complement. *)
Definition near (eps : R) (xs ys : list R) : Prop := List.Forall2 (fun x y => Rabs (y - x) < eps) xs ys.
Definition frontier (S : list R -> Prop) (xs : list R) : Prop :=
  forall eps, 0 < eps -> (exists ys, near eps xs ys /\ S ys) /\ (exists zs, near eps xs zs /\ ~ S zs).

(** What the constructors guarantee. *)
Definition all_true (l : list Prop) : Prop := fold_right and True l.
Definition array_ok (p : array) : Prop := length (a_data p) = size (a_shape p).
Fixpoint valid (d : domain) : Prop :=
  match d with
  | Interval dt l u => is_floating dt = true /\ l <= u
  | Point p => is_floating (a_dtype p) = true /\ array_ok p
  | Box dt bs => is_floating dt = true /\ List.Forall (fun '(l, u) => l <= u) bs
  | Prod dt fs => is_floating dt = true /\ all_true (map valid fs) /\
      List.Forall (fun f => (ndims f <= 1)%nat /\ ddtype f = dt) fs
  end.

(** No factor is a point of the zero-dimensional space. *)
Fixpoint no_empty_point (d : domain) : Prop :=
  match d with
  | Point p => a_data p <> []
  | Prod _ fs => all_true (map no_empty_point fs)
  | _ => True
  end.

(** Number of coordinates. *)
Fixpoint dim (d : domain) : nat :=
  match d with
  | Interval _ _ _ => 1
  | Point p => size (a_shape p)
  | Box _ bs => length bs
  | Prod _ fs => fold_right Nat.add 0%nat (map dim fs)
  end.

(** Product of the side lengths. *)
Definition widths (bs : list (R * R)) : R := fold_right Rmult 1 (map (fun '(l, u) => u - l) bs).

(** Domains of the same form: equal number of factors, points of equal shape. *)
Fixpoint aligned (d1 d2 : domain) : Prop :=
  match d1, d2 with
  | Interval _ _ _, Interval _ _ _ => True
  | Point p, Point q => a_shape p = a_shape q
  | Box _ bs, Box _ bs' => length bs = length bs'
  | Prod _ fs, Prod _ gs =>
      (fix go fs gs := match fs, gs with
         | [], [] => True
         | f :: fs', g :: gs' => aligned f g /\ go fs' gs'
         | _, _ => False
         end) fs gs
  | _, _ => False
  end.

(** Points of a tensor product grid given by its factors. *)
Definition grid_points (fs : list (list R)) (xs : list R) : Prop := List.Forall2 (fun f x => In x f) fs xs.

(** Some side has length zero. *)
Fixpoint degenerate (d : domain) : Prop :=
  match d with
  | Interval _ l u => l = u
  | Point _ => True
  | Box _ bs => List.Exists (fun '(l, u) => l = u) bs
  | Prod _ fs => fold_right or False (map degenerate fs)
  end.

(** Number of non-degenerate sides among the first [i]. *)
Definition rank (bs : list (R * R)) (i : nat) : nat :=
  length (filter (fun b => if Req_EM_T (fst b) (snd b) then false else true) (firstn i bs)).
