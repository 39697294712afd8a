(** What the properties about rational splines and bounded exponents are stated with. *)
From Coq Require Import Arith List NArith ZArith Bool Reals.
From Verif Require Import Prelude Scalar SpecSpline Coord ModelSpline ModelRational ModelIEEE ModelRound SpecRound SpecIEEE.
Import ListNotations.
Local Open Scope R_scope.

(** Exponents for which a number between 2^-m and 2^m and its inverse keep all their digits. *)
Definition safe_exponent (F : format) (m : Z) : Prop :=
  (0 <= m)%Z /\ (m + Z.of_nat (prec F) + 1 <= - emin F)%Z /\ (m < emax F)%Z.
Definition safe_weights {V} (m : Z) (r : rspline R V) : Prop :=
  Forall (fun w => powerRZ 2 (- m) <= w <= powerRZ 2 m) (control_points (weight_function r)).

(** Relative error of the quotient after [n] rounds of de Casteljau and [k] further roundings. *)
Definition quotient_factor (F : format) (n k : nat) : R :=
  (1 + / 2 ^ prec F) ^ (3 * n + k) / (1 - gamma (prec F) (4 * n)) - 1.
