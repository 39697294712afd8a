(** What the properties about bounded exponents are stated with. *)
From Coq Require Import Arith List NArith ZArith Bool Reals.
From Verif Require Import Prelude Scalar SpecSpline Coord ModelSpline ModelIEEE.
Import ListNotations.
Local Open Scope R_scope.

(** Every coefficient is a finite number of the format. *)
Definition machine_point (F : format) {d} (q : point R d) : Prop := forall k, (k < d)%nat -> machine F (coord d q k).
Definition machine_points (F : format) {d} (s : spline (point R d)) : Prop := Forall (machine_point F) (control_points s).
Definition machine_coeffs (F : format) (s : spline R) : Prop := Forall (machine F) (control_points s).

(** What [n] rounds of de Casteljau can lose to underflow, about [n] times the smallest positive number. *)
Definition underflow (F : format) (n : nat) : R := INR n * tiny F * (1 + / 2 ^ prec F) ^ (3 * n).
