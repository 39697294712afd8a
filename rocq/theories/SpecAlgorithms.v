(** Specification of the algorithms in src/utils/algorithms. *)
From Coq Require Import Arith List ZArith Bool Permutation.
From Verif Require Import ModelAlgorithms.
Import ListNotations.

Definition representable (t : int_type) (z : Z) : Prop := (imin t <= z <= imax t)%Z.
(** The sizes of the integral types. *)
Definition standard_type (t : int_type) : Prop := In (ibits t) [8; 16; 32; 64]%Z.

(** Strict weak order, the requirement of the standard library on [operator<]. *)
Definition strict_weak_order {T} (lt : T -> T -> bool) : Prop :=
  (forall x, lt x x = false) /\
  (forall x y z, lt x y = true -> lt y z = true -> lt x z = true) /\
  (forall x y z, lt x y = false -> lt y z = false -> lt x z = false).

(** [idx] lists all positions of [v], so that the entries appear in non-decreasing order and
    equivalent entries keep their relative position. *)
Definition stable_sorting {T} (lt : T -> T -> bool) (v : list T) (idx : list nat) : Prop :=
  Permutation idx (seq 0 (length v)) /\
  forall a b d, a < b < length idx ->
    lt (nth (nth b idx 0) v d) (nth (nth a idx 0) v d) = false /\
    (lt (nth (nth a idx 0) v d) (nth (nth b idx 0) v d) = false -> nth a idx 0 < nth b idx 0).
