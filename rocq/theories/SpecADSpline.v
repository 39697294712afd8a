(** Numbers that carry the value and the gradient of a function. *)
From Coq Require Import Arith List Reals.
From Verif Require Import Prelude Scalar ModelAD.
Import ListNotations.
Local Open Scope R_scope.

(** [a] holds the value of [f] at [y] and all its partial derivatives there. *)
Definition tracks (y : list R) (a : adt R) (f : list R -> R) : Prop :=
  ad_v a = f y /\ length (ad_d a) = length y /\
  forall i, (i < length y)%nat -> derivable_pt_lim (fun t => f (upd_list y i t)) (nth i y 0) (nth i (ad_d a) 0).

(** The same for every coordinate of a point. *)
Definition tracks_point (y : list R) (d : nat) (p : point (adt R) d) (f : list R -> point R d) : Prop :=
  forall k, (k < d)%nat ->
    tracks y (nth k (plist d p) (AD_constant (length y) 0)) (fun y' => nth k (plist d (f y')) 0).
