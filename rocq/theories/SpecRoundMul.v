(** Constants in the rounding errors of products, powers and compositions. *)
From Coq Require Import Arith List Reals.
From Verif Require Import Prelude Scalar Spec SpecSpline.
Import ListNotations.

(** Roundings in one coefficient of a product. *)
Definition product_roundings (ms ns : list nat) : nat := (5 * length ms + 2 + n_coeffs (map2 Nat.min ms ns))%nat.
(** Roundings in one coefficient of an integer power. *)
Definition power_roundings (degs : list nat) (n : nat) : nat :=
  ((n - 1) * (5 * length degs + 2 + n_coeffs (map (Nat.mul (n / 2)) degs)))%nat.

(** Roundings in one coefficient of a product that occurs in the composition of an outer spline of
    degrees [outer] with an inner one of degrees [inner], in one coefficient of a sensitivity, and in
    one coefficient of the composition. *)
Definition inner_product_roundings (outer inner : list nat) : nat :=
  (5 * length inner + 2 + n_coeffs (map (Nat.mul (list_sum outer)) inner))%nat.
Definition sensitivity_roundings (outer inner : list nat) : nat :=
  ((list_sum outer + 2 * length outer) * (inner_product_roundings outer inner + 1))%nat.
Definition compose_roundings (outer inner : list nat) : nat :=
  (sensitivity_roundings outer inner + n_coeffs outer)%nat.
