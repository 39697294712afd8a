(** Faces of splines: what the pieces of a subdivided spline share. *)
From Coq Require Import Arith List.
From Verif Require Import Prelude Scalar Spec SpecSpline ModelSpline.
Import ListNotations.

Section Faces.
Context {T V : Type} {o : SOps T} {ov : VOps T V}.

(** The coefficient with multi-index [mi], where index [k] is replaced by [j]. *)
Definition face_coefficient (s : spline V) (k j : nat) (mi : list nat) : V :=
  nth (position (degrees s) (upd_list mi k j)) (control_points s) v0.

(** The coefficients on the far face of [a] in direction [k] are those on the near face of [b]. *)
Definition joined (k : nat) (a b : spline V) : Prop := forall mi, valid_index (degrees a) mi ->
  face_coefficient a k (nth k (degrees a) 0) mi = face_coefficient b k 0 mi.
(** Equal near faces, equal far faces. *)
Definition same_near_face (k : nat) (a b : spline V) : Prop := forall mi, valid_index (degrees a) mi ->
  face_coefficient a k 0 mi = face_coefficient b k 0 mi.
Definition same_far_face (k : nat) (a b : spline V) : Prop := forall mi, valid_index (degrees a) mi ->
  face_coefficient a k (nth k (degrees a) 0) mi = face_coefficient b k (nth k (degrees b) 0) mi.
End Faces.
