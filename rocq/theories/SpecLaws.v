(** Notions used by the laws between operations. *)
From Coq Require Import Arith List Reals.
From Verif Require Import Prelude Scalar Spec SpecSpline SpecReal ModelSpline.
Import ListNotations.
Local Open Scope nat_scope.

(** One derivative in direction [k] of [n]. *)
Definition single (n k : nat) : list nat := upd_list (repeat 0 n) k 1.

(** Different physical points differ in some linear form. *)
Definition separated {V} {ov : VOps R V} : Prop :=
  forall a b : V, (forall phi, linear_form phi -> phi a = phi b) -> a = b.

(** Sum of a non-empty list of splines with [operator+]. *)
Inductive sum_of {T V} {o : SOps T} {ov : VOps T V} : list (spline V) -> spline V -> Prop :=
| sum_one : forall s, sum_of [s] s
| sum_more : forall s l t r, sum_of l t -> returns (fun fuel => spline_add (T := T) fuel s t) r -> sum_of (s :: l) r.
