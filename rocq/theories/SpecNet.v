(** The control net: neighbouring control points and their differences, measured with a seminorm. *)
From Coq Require Import Arith List Reals.
From Verif Require Import Prelude Scalar Spec SpecSpline Coord ModelSpline.
Import ListNotations.

Section Net.
Context {V : Type} {ov : VOps R V}.

(** Absolute values of numbers, of a coordinate of points, the Euclidean norm, ... *)
Definition seminorm (N : V -> R) : Prop :=
  (forall a b, N (vadd a b) <= N a + N b)%R /\ (forall c a, N (vscale c a) = Rabs c * N a)%R.

(** More generally: functions that respect sums and multiples by numbers that are not negative in this sense.
    Linear forms and their negatives belong to them. *)
Definition sublinear (N : V -> R) : Prop :=
  (forall a b, N (vadd a b) <= N a + N b)%R /\ (forall c a, 0 <= c -> N (vscale c a) = c * N a)%R.

(** The control point at the multi-index [idx], and [i] places further in direction [k]. *)
Definition net (s : spline V) (idx : list nat) : V := nth (position (degrees s) idx) (control_points s) v0.
Definition along (s : spline V) (k : nat) (idx : list nat) (i : nat) : V :=
  net s (upd_list idx k (nth k idx 0 + i)).

(** Neighbours in direction [k] are at most [D] apart. *)
Definition steps_below (N : V -> R) (s : spline V) (k : nat) (D : R) : Prop :=
  forall idx, valid_index (degrees s) idx -> nth k idx 0 + 1 <= nth k (degrees s) 0 ->
    (N (vsub (along s k idx 1) (along s k idx 0)) <= D)%R.
(** Second differences in direction [k] are at most [D]. *)
Definition bends_below (N : V -> R) (s : spline V) (k : nat) (D : R) : Prop :=
  forall idx, valid_index (degrees s) idx -> nth k idx 0 + 2 <= nth k (degrees s) 0 ->
    (N (vsub (vsub (along s k idx 2) (along s k idx 1)) (vsub (along s k idx 1) (along s k idx 0))) <= D)%R.

(** The parameters [ts] belong to the control point [idx]: [t_k = idx_k / p_k] (any number where p_k = 0). *)
Definition node (degs idx : list nat) (ts : list R) : Prop :=
  length ts = length degs /\ forall k, k < length degs -> (INR (nth k degs 0%nat) * nth k ts 0 = INR (nth k idx 0%nat))%R.

(** How far a control point may be from the spline at its node, given bounds [Ds] of the second differences:
    the sum over the directions of i (p - i) / (2 p) D; at most the sum of p / 8 D. *)
Fixpoint allowance (degs idx : list nat) (Ds : list R) : R :=
  match degs, idx, Ds with
  | p :: degs', i :: idx', D :: Ds' => (INR i * INR (p - i) / (2 * INR p) * D + allowance degs' idx' Ds')%R
  | _, _, _ => 0%R
  end.
Fixpoint weighted_sum (degs : list nat) (Ds : list R) : R :=
  match degs, Ds with
  | p :: degs', D :: Ds' => (INR p * D + weighted_sum degs' Ds')%R
  | _, _ => 0%R
  end.

(** [r] is obtained from [s] by halving in the directions [ks] and keeping one of the halves each time. *)
Inductive halved : list nat -> spline V -> spline V -> Prop :=
| halved_nil : forall s, halved [] s s
| halved_cons : forall k ks s a b q r, SplitAtPosition s (1 / 2)%R k = Ok [a; b] -> q = a \/ q = b ->
    halved ks q r -> halved (k :: ks) s r.
(** [r] is obtained from [s] by elevating [n] times in direction [k]. *)
Inductive elevated (k : nat) : nat -> spline V -> spline V -> Prop :=
| elevated_0 : forall s, elevated k 0 s s
| elevated_S : forall n s q r, OrderElevate s k = Ok q -> elevated k n q r -> elevated k (S n) s r.
End Net.
