(** What the properties of the basis functions with bounded exponents are stated with. *)
From Coq Require Import Arith List NArith ZArith Bool Reals.
From Verif Require Import Prelude Scalar Spec SpecSpline Coord ModelSpline ModelIEEE ModelRound SpecRound SpecIEEE.
Import ListNotations.
Local Open Scope R_scope.

(** What one basis function of these degrees can lose to underflow. *)
Definition basis_loss (F : format) (degs : list nat) : R :=
  fold_right (fun q acc => (1 + INR (q + 3) * 2 ^ q * (tiny F / 2)) * acc) 1 degs - 1.
(** Room for the basis functions and the binomial coefficients. *)
Definition basis_fits (F : format) (degs : list nat) : Prop :=
  2 ^ 68 <= omega F /\ (1 + / 2 ^ prec F) ^ basis_roundings degs * (1 + basis_loss F degs) <= omega F.
(** What the sum of [n] products of coefficients and basis functions can lose, for coefficients of
    absolute sum [a]. *)
Definition forward_loss (F : format) (degs : list nat) (a : R) : R :=
  (1 + / 2 ^ prec F) ^ forward_roundings degs * (basis_loss F degs * a + INR (n_coeffs degs) * (tiny F / 2)).
(** Sums of the absolute coefficients. *)
Definition abs_sum {d} (s : spline (point R d)) (k : nat) : R :=
  ssum (n_coeffs (degrees s)) (fun i => Rabs (coord d (nth i (control_points s) v0) k)).
Definition abs_sum_s (s : spline R) : R := ssum (n_coeffs (degrees s)) (fun i => Rabs (nth i (control_points s) 0)).
(** Formats with room for the basis functions; both IEEE formats have it. *)
Definition roomy (F : format) : Prop := (emin F <= - (2 * Z.of_nat (prec F) + 71))%Z /\ (70 <= emax F + Z.of_nat (prec F))%Z.
