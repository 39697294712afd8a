(** Shape of the control net and of the spline: growth, convexity, changes of sign. *)
From Coq Require Import Arith List Reals.
From Verif Require Import Prelude Scalar Spec SpecSpline ModelSpline SpecNet.
Import ListNotations.
Local Open Scope R_scope.

(** Numbers themselves, a coordinate, a linear form, the signed distance from a plane, ... *)
Definition affine_form {V : Type} {ov : VOps R V} (phi : V -> R) : Prop :=
  forall a b t, phi (vadd (vscale (1 - t) a) (vscale t b)) = (1 - t) * phi a + t * phi b.

Section Shape.
Context {V : Type} {ov : VOps R V} (phi : V -> R).

(** The control points do not decrease in direction [k]; they are convex in direction [k]. *)
Definition rising (s : spline V) (k : nat) : Prop :=
  forall idx, valid_index (degrees s) idx -> (nth k idx 0 + 1 <= nth k (degrees s) 0)%nat ->
    phi (along s k idx 0) <= phi (along s k idx 1).
Definition convex_net (s : spline V) (k : nat) : Prop :=
  forall idx, valid_index (degrees s) idx -> (nth k idx 0 + 2 <= nth k (degrees s) 0)%nat ->
    2 * phi (along s k idx 1) <= phi (along s k idx 0) + phi (along s k idx 2).
End Shape.

(** Neighbouring numbers have opposite signs, and none is zero. *)
Fixpoint alternating (l : list R) : Prop :=
  match l with
  | [] => True
  | [a] => a <> 0
  | a :: ((b :: _) as l') => a * b < 0 /\ alternating l'
  end.
Definition same_sign (a b : R) : Prop := 0 < a * b.

Fixpoint increasing {A : Type} (lt : A -> A -> Prop) (l : list A) : Prop :=
  match l with
  | [] => True
  | [a] => True
  | a :: ((b :: _) as l') => lt a b /\ increasing lt l'
  end.

(** Increasing indices up to [p] at which [f] changes its sign. *)
Definition sign_pattern (f : nat -> R) (p : nat) (is : list nat) : Prop :=
  increasing lt is /\ Forall (fun i => (i <= p)%nat) is /\ alternating (map f is).
(** [f 0, ..., f m] changes its sign at least as often as [g 0, ..., g n]. *)
Definition no_more_changes (g : nat -> R) (n : nat) (f : nat -> R) (m : nat) : Prop :=
  forall js, sign_pattern g n js ->
    exists is, sign_pattern f m is /\ Forall2 (fun i j => same_sign (f i) (g j)) is js.
