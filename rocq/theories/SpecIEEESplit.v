(** Subdivision at several planes with bounded exponents: which planes are covered and what is said
    about the cuts and the parts. *)
From Coq Require Import Arith List NArith ZArith Bool Reals.
From Verif Require Import Prelude Scalar SpecRound SpecRoundSplit ModelIEEE SpecIEEE.
Import ListNotations.
Local Open Scope R_scope.

(** Planes that the format can hold, increasing strictly, from above 0 to at most 1 - 3/2^p. *)
Definition machine_planes (F : format) (planes : list R) : Prop :=
  Forall (on_grid F) planes /\ planes_inside (prec F) planes.

(** As [cuts_near], with one more unit of the smallest positive number for every division. *)
Definition machine_cuts_near (F : format) (planes cuts : list R) : Prop :=
  length cuts = length planes /\
  forall i, (i < length planes)%nat ->
    0 < nth i cuts 0 < 1 /\
    Rabs (nth i cuts 0 - nth i planes 0) <= gamma (prec F) 4 * (nth i planes 0 - nth 0 planes 0) + INR i * tiny F /\
    ((S i < length planes)%nat -> nth i cuts 0 < nth (S i) cuts 0).

(** The error of part [i] of [n] + 1, for degree [q] and coefficients of size [B]. *)
Definition part_error (F : format) (q n i : nat) (B : R) : R :=
  gamma (prec F) (part_roundings q n i) * B + underflow F (q * Nat.min (S i) n).
