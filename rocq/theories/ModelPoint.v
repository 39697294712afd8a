(** Model of class Point (src/point.hpp) as coordinate loops, and of mutating
    operators called with an argument that refers into the object itself. *)
From Coq Require Import Arith Lia List ZArith NArith Bool.
From Verif Require Import Prelude Scalar ModelSpline.
Import ListNotations.

Section Point.
Context {T : Type} {o : SOps T} {d : nat}.

(** src/point.hpp:79-85  operator+= (point) *)
Definition point_add_assign (p rhs : point T d) : res (point T d) :=
  for_up 0 d (fun i p =>
    do a <- pget d p i; do b <- pget d rhs i; pset d p i (sadd a b)) p.
(** src/point.hpp:72-77  operator+ (works on a copy) *)
Definition point_add (p rhs : point T d) := point_add_assign p rhs.

(** src/point.hpp:94-100  operator-= (point) *)
Definition point_sub_assign (p rhs : point T d) : res (point T d) :=
  for_up 0 d (fun i p =>
    do a <- pget d p i; do b <- pget d rhs i; pset d p i (ssub a b)) p.
(** src/point.hpp:87-92  operator- *)
Definition point_sub (p rhs : point T d) := point_sub_assign p rhs.

(** src/point.hpp:108-112  operator*= (scalar) *)
Definition point_scale_assign (p : point T d) (scale : T) : res (point T d) :=
  for_up 0 d (fun i p => do a <- pget d p i; pset d p i (smul a scale)) p.
(** src/point.hpp:114-124  operator* (scalar), scalar * point *)
Definition point_scale (p : point T d) (scale : T) := point_scale_assign p scale.

(** src/point.hpp:102-106  unary minus *)
Definition point_neg (p : point T d) := point_scale p (sopp s1).

(** src/point.hpp:126-138  operator/= and operator/ (scalar) *)
Definition point_div_assign (p : point T d) (scale : T) : res (point T d) :=
  do inv_scale <- divS s1 scale; point_scale_assign p inv_scale.
Definition point_div (p : point T d) (scale : T) := point_div_assign p scale.

(** src/point.hpp:140-146  scalar / point *)
Definition scalar_div_point (scale : T) (p : point T d) : res (point T d) :=
  for_up 0 d (fun i r => do a <- pget d p i; do q <- divS scale a; pset d r i q)
    (pconst d s0).

(** src/point.hpp:148-158  scalar product *)
Definition point_dot (p q : point T d) : res T :=
  for_up 0 d (fun i r => do a <- pget d p i; do b <- pget d q i; Ok (sadd r (smul a b))) s0.

(** src/point.hpp:160-167  SquaredEuclidianNorm *)
Definition point_sqnorm (p : point T d) : res T :=
  for_up 0 d (fun i r => do a <- pget d p i; do b <- pget d p i; Ok (sadd r (smul a b))) s0.

(** [p *= p[k]]: operator*= of src/point.hpp:108-112, the reference parameter
    denotes coordinate [k] of the point being modified. *)
Definition point_scale_assign_self (p : point T d) (k : nat) : res (point T d) :=
  for_up 0 d (fun i p =>
    do a <- pget d p i; do scale <- pget d p k; pset d p i (smul a scale)) p.
(** [p /= p[k]]: operator/= of src/point.hpp:126-131 takes the reciprocal before it
    modifies the point. *)
Definition point_div_assign_self (p : point T d) (k : nat) : res (point T d) :=
  do scale <- pget d p k; do inv_scale <- divS s1 scale; point_scale_assign p inv_scale.
(** [p += p] and [p -= p]: src/point.hpp:79-85 and 94-100 with [rhs] the point itself. *)
Definition point_add_assign_self (p : point T d) : res (point T d) :=
  for_up 0 d (fun i p =>
    do a <- pget d p i; do b <- pget d p i; pset d p i (sadd a b)) p.
Definition point_sub_assign_self (p : point T d) : res (point T d) :=
  for_up 0 d (fun i p =>
    do a <- pget d p i; do b <- pget d p i; pset d p i (ssub a b)) p.
End Point.

(** [s op= s.control_points[k]]: the loops of src/bezier_spline.inc:500-520, 533-542 with
    the reference parameter denoting control point [k] of the spline being modified. *)
Definition map_points_self {V} (op : V -> V -> V) (k : nat) (s : spline V) : res (spline V) :=
  do c <- for_up 0 (number_of_control_points s) (fun i c =>
    do x <- get c i; do arg <- get c k; set c i (op x arg)) (control_points s);
  Ok (with_cps s c).
