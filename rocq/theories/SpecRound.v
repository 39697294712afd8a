(** Error bounds the rounding properties are stated with. *)
From Coq Require Import Arith List NArith ZArith Bool Reals.
From Verif Require Import Prelude Scalar Spec SpecSpline Coord ModelSpline.
Import ListNotations.
Local Open Scope R_scope.

(** Accumulated relative error of [k] roundings to [p] digits, about [k / 2^p]. *)
Definition gamma (p k : nat) : R := (1 + / 2 ^ p) ^ k - 1.

(** The spline with the absolute values of the coefficients: the scale of the error. *)
Definition magnitude {d} (s : spline (point R d)) (xs : list R) (k : nat) : R :=
  bezier (degrees s) xs (fun i => Rabs (coord d (nth i (control_points s) v0) k)).
Definition magnitude_s (s : spline R) (xs : list R) : R :=
  bezier (degrees s) xs (fun i => Rabs (nth i (control_points s) 0)).

(** Roundings in one basis function, and in one forward evaluation. *)
Definition basis_roundings (degs : list nat) : nat := list_sum (map (fun p => 2 * p + 4)%nat degs).
Definition forward_roundings (degs : list nat) : nat := (basis_roundings degs + n_coeffs degs)%nat.
Definition casteljau_roundings (degs : list nat) : nat := (3 * list_sum degs)%nat.

Definition in_unit_box (xs : list R) : Prop := Forall (fun x => 0 <= x <= 1) xs.

(** How many times one direction or another has to be elevated to reach the degrees [targets]. *)
Definition elevations (degs targets : list nat) : nat := list_sum (map2 (fun a b => (b - a)%nat) degs targets).

(** p (p-1) ... (p-k+1) *)
Fixpoint falling (p k : nat) : R := match k with O => 1 | S k' => falling p k' * INR (p - k') end.
(** A bound for the coefficients of a derivative in terms of those of the spline, and the number of
    roundings in one of them. *)
Fixpoint derivative_scale (degs ks : list nat) : R :=
  match degs, ks with
  | p :: degs', k :: ks' => falling p k * 2 ^ k * derivative_scale degs' ks'
  | _, _ => 1
  end.
Definition derivative_roundings (ks : list nat) : nat :=
  list_sum (map (fun k => if k =? 0 then 0 else 3 * k + 4)%nat ks).

(** Bounds for one coordinate of all control points, and for all coefficients. *)
Definition coord_bound {d} (s : spline (point R d)) (c : nat) (B : R) : Prop :=
  forall i, (i < n_coeffs (degrees s))%nat -> Rabs (coord d (nth i (control_points s) v0) c) <= B.
Definition coeff_bound (s : spline R) (B : R) : Prop :=
  forall i, (i < n_coeffs (degrees s))%nat -> Rabs (nth i (control_points s) 0) <= B.

(** The error of a sum: operands bounded by [B1] and [B2], elevated [n1] and [n2] times. *)
Definition sum_error (p n1 n2 : nat) (B1 B2 : R) : R :=
  ((1 + / 2 ^ p) * (1 + 3 * gamma p 5) ^ n1 - 1) * B1 + ((1 + / 2 ^ p) * (1 + 3 * gamma p 5) ^ n2 - 1) * B2.
