(** Counting the roundings in the derivatives of basis functions and in EvaluateDerivative. *)
From Coq Require Import Arith List Reals.
From Verif Require Import Prelude Scalar Spec SpecSpline ModelBasis ModelSpline ModelRound.
Import ListNotations.

Definition derivative_basis_roundings (degs ks : list nat) : nat := list_sum (map (fun '(q, k) => 2 * q + k + 8) (combine degs ks)).
Definition evaluate_derivative_roundings (degs ks : list nat) : nat := derivative_basis_roundings degs ks + n_coeffs degs.

(** The sum of the absolute errors of the entries of a list. *)
Definition total_error (l' l : list R) : R := fold_right Rplus 0%R (map (fun '(a, b) => Rabs (a - b)) (combine l' l)).

(** The functions of the spline class in rounded arithmetic. *)
Section Rounded.
Context (rnd : R -> R).
Definition BernsteinEvaluateDerivative_rnd (MAXB degree : nat) (x : R) (k : nat) : res (list R) :=
  BernsteinEvaluateDerivative (o := SOps_rnd rnd) MAXB degree x k.
Definition BasisFunctionsDerivatives_rnd (MAXB : nat) {V} (s : spline V) (xs : list R) (ks : list nat) : res (list R) :=
  BasisFunctionsDerivatives (o := SOps_rnd rnd) MAXB s xs ks.
Definition EvaluateDerivative_rnd (MAXB : nat) {d} (s : spline (point R d)) (xs : list R) (ks : list nat) : res (point R d) :=
  EvaluateDerivative (o := SOps_rnd rnd) (ov := VOps_point R d (o := SOps_rnd rnd)) MAXB s xs ks.
Definition EvaluateDerivative_rnd_s (MAXB : nat) (s : spline R) (xs : list R) (ks : list nat) : res R :=
  EvaluateDerivative (o := SOps_rnd rnd) (ov := VOps_scalar R (o := SOps_rnd rnd)) MAXB s xs ks.
End Rounded.
