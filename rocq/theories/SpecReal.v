(** Derivatives of functions of real variables (specification side). *)
From Coq Require Import Arith List Reals.
From Verif Require Import Prelude Scalar.
Import ListNotations.
Local Open Scope R_scope.

(** [g] is the [n]-th derivative of [f] on the whole line. *)
Fixpoint nth_derivative (n : nat) (f g : R -> R) : Prop :=
  match n with
  | O => forall x, f x = g x
  | S n' => exists f', (forall x, derivable_pt_lim f x (f' x)) /\ nth_derivative n' f' g
  end.

(** [g] is the partial derivative of [f] in direction [k] at every point of [D]. *)
Definition partial (D : list R -> Prop) (k : nat) (f g : list R -> R) : Prop :=
  forall xs, D xs -> derivable_pt_lim (fun y => f (upd_list xs k y)) (nth k xs 0) (g xs).

(** [g] is the mixed partial derivative of [f] on [D] obtained by differentiating
    in the directions [dirs], one after the other. *)
Fixpoint mixed (D : list R -> Prop) (dirs : list nat) (f g : list R -> R) : Prop :=
  match dirs with
  | [] => forall xs, D xs -> f xs = g xs
  | k :: dirs' => exists f', partial D k f f' /\ mixed D dirs' f' g
  end.

(** [dirs] lists each direction [k] exactly [orders_k] times. *)
Definition directions_of (orders dirs : list nat) : Prop :=
  Forall (fun k => k < length orders)%nat dirs /\
  forall k, (k < length orders)%nat -> count_occ Nat.eq_dec dirs k = nth k orders 0%nat.

(** A linear function of a physical point, for example one of its coordinates. *)
Definition linear_form {V} {ov : VOps R V} (phi : V -> R) : Prop :=
  (forall a b, phi (vadd a b) = phi a + phi b) /\ (forall c a, phi (vscale c a) = c * phi a).
