(** What is left of an object when one of its members throws.

    The functions below change an object in place.  std::vector::resize throws when more than [limit] elements are
    asked for (std::length_error, or std::bad_alloc when [limit] is what the memory holds) and then leaves the vector
    as it was; the members assigned before keep their new values.  A value [(x, r)] is the object afterwards and the
    outcome; after an undefined step or a failed assertion the object is of no interest. *)
From Coq Require Import Arith List ZArith Bool.
From Verif Require Import Prelude Scalar ModelSpline ModelRational ModelSize ModelSize2.
Import ListNotations.

Definition outcome {A} (p : A * res unit) : res A :=
  match snd p with
  | Ok _ => Ok (fst p)
  | Throw => Throw
  | AssertFail => AssertFail
  | UB => UB
  | NonFinite => NonFinite
  | Diverge => Diverge
  end.
Definition failed {A B} (x : A) (e : res B) : A * res unit :=
  (x, match e with Ok _ => Ok tt | Throw => Throw | AssertFail => AssertFail | UB => UB | NonFinite => NonFinite | Diverge => Diverge end).

Definition then_ {A} (p : A * res unit) (f : A -> A * res unit) : A * res unit :=
  match p with (x, Ok _) => f x | (x, e) => (x, e) end.
Fixpoint for_in {A} (lo n : nat) (f : nat -> A -> A * res unit) (x : A) : A * res unit :=
  match n with
  | O => (x, Ok tt)
  | S n' => then_ (f lo x) (for_in (S lo) n' f)
  end.
Fixpoint while_in {A} (fuel : nat) (c : A -> bool) (f : A -> A * res unit) (x : A) : A * res unit :=
  match fuel with
  | O => (x, Diverge)
  | S m => if c x then then_ (f x) (while_in m c f) else (x, Ok tt)
  end.

(** A spline with its member number_of_control_points overwritten. *)
Definition recount {V} (s : spline V) (n : nat) : spline V :=
  mkSpline (degrees s) n (index_offsets s) (control_points s).

Section Spline.
Context (limit : nat) {T V : Type} {o : SOps T} {ov : VOps T V}.

(** src/bezier_spline.hpp:226-235  UpdateDegrees: degrees and number_of_control_points are assigned before resize(),
    the offsets after it. *)
Definition UpdateDegrees_in (s : spline V) (new_degrees : list nat) : spline V * res unit :=
  match count_points_64 new_degrees with
  | Ok n =>
    if limit <? n then (mkSpline new_degrees n (index_offsets s) (control_points s), Throw) else
    match UpdateIndexOffsets_64 new_degrees with
    | Ok offs => (mkSpline new_degrees n offs (resize v0 (control_points s) n), Ok tt)
    | e => failed s e
    end
  | e => failed s e
  end.

(** src/bezier_spline.inc:149-227  OrderElevateAlongParametricDimension: number_of_control_points is assigned before
    resize(), everything else after it. *)
Definition OrderElevate_in (s : spline V) (par_dim : nat) : spline V * res unit :=
  match OrderElevate_64 (T := T) limit s par_dim with
  | Ok r => (r, Ok tt)
  | Throw =>
    let p := nth par_dim (degrees s) 0 in
    (recount s (w64 (number_of_control_points s / w64 (p + 1) * w64 (p + 2))), Throw)
  | e => failed s e
  end.

(** The loops of src/bezier_spline.inc:622-633 and 681-692. *)
Definition elevate_to_in (fuel target par_dim : nat) (x : spline V) : spline V * res unit :=
  while_in fuel (fun y => nth par_dim (degrees y) 0 <? target) (fun y => OrderElevate_in y par_dim) x.
Definition elevate_all_in (fuel : nat) (targets : list nat) (x : spline V) : spline V * res unit :=
  for_in 0 (length (degrees x)) (fun par_dim x =>
    match get targets par_dim with
    | Ok t => elevate_to_in fuel t par_dim x
    | e => failed x e
    end) x.

(** src/bezier_spline.inc:617-640 and 676-699  operator+=(spline), operator-=(spline).  The right-hand side is passed by
    value: what happens to it is not seen by the caller. *)
Definition assign_in (op : V -> V -> V) (fuel : nat) (s rhs : spline V) : spline V * res unit :=
  then_ (elevate_all_in fuel (degrees rhs) s) (fun s =>
    match outcome (elevate_all_in fuel (degrees s) rhs) with
    | Ok rhs =>
      match combine_assign op (number_of_control_points s) s rhs with
      | Ok r => (r, Ok tt)
      | e => failed s e
      end
    | e => failed s e
    end).
Definition spline_add_assign_in := assign_in vadd.
Definition spline_sub_assign_in := assign_in vsub.
End Spline.

(** Rational splines: the vectors of the two parts may have different limits. *)
Section Rational.
Context (limit limit_w : nat) {T V : Type} {o : SOps T} {ov : VOps T V}.

(** src/rational_bezier_spline.inc:437-448  OrderElevateAlongParametricDimension *)
Definition R_OrderElevate_in (r : rspline T V) (par_dim : nat) : rspline T V * res unit :=
  match OrderElevate_in (T := T) limit (weighted_spline r) par_dim with
  | (u, Ok _) =>
    match OrderElevate_in (T := T) limit_w (weight_function r) par_dim with
    | (w, Ok _) => failed (mkR u w) (assert_ (compatible (mkR u w)))
    | (w, e) => (mkR u w, e)
    end
  | (u, e) => (mkR u (weight_function r), e)
  end.

(** src/rational_bezier_spline.hpp:196-202  UpdateDegrees *)
Definition R_UpdateDegrees_in (r : rspline T V) (new_degrees : list nat) : rspline T V * res unit :=
  match UpdateDegrees_in limit_w (T := T) (weight_function r) new_degrees with
  | (w, Ok _) =>
    match UpdateDegrees_in limit (T := T) (weighted_spline r) new_degrees with
    | (u, Ok _) => failed (mkR u w) (assert_ (compatible (mkR u w)))
    | (u, e) => (mkR u w, e)
    end
  | (w, e) => (mkR (weighted_spline r) w, e)
  end.
End Rational.
