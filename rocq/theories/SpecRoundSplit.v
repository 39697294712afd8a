(** Subdivision at several planes when every operation is rounded: which planes are covered and what
    is said about the cuts that are made for them. *)
From Coq Require Import Arith List NArith ZArith Bool Reals.
From Verif Require Import Prelude Scalar SpecRound.
Import ListNotations.
Local Open Scope R_scope.

(** The planes increase strictly, from above 0 to at most 1 - 3/2^p. *)
Definition planes_inside (p : nat) (planes : list R) : Prop :=
  forall i, (i < length planes)%nat ->
    0 < nth i planes 0 <= 1 - 3 * / 2 ^ p /\
    ((S i < length planes)%nat -> nth i planes 0 < nth (S i) planes 0).

(** The parameters at which the spline is really cut: as many as planes, increasing strictly within
    (0,1), each within four relative rounding errors of its plane. The first one is exact. *)
Definition cuts_near (p : nat) (planes cuts : list R) : Prop :=
  length cuts = length planes /\
  forall i, (i < length planes)%nat ->
    0 < nth i cuts 0 < 1 /\
    Rabs (nth i cuts 0 - nth i planes 0) <= gamma p 4 * (nth i planes 0 - nth 0 planes 0) /\
    ((S i < length planes)%nat -> nth i cuts 0 < nth (S i) cuts 0).

(** Cut [i] and the one after it, between the ends 0 and 1 of the parameter range. *)
Definition cut_from (cuts : list R) (i : nat) : R := nth i (0 :: cuts) 0.
Definition cut_to (cuts : list R) (i : nat) : R := nth i (cuts ++ [1]) 0.
(** The parameter of the whole spline for the parameter [xs] of part [i] in direction [k]. *)
Definition in_part (cuts : list R) (k i : nat) (xs : list R) : list R :=
  upd_list xs k (cut_from cuts i + (cut_to cuts i - cut_from cuts i) * nth k xs 0).
(** Roundings in the coefficients of part [i]. *)
Definition part_roundings (q n i : nat) : nat := (3 * q * Nat.min (S i) n)%nat.
