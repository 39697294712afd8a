(** Model of src/utils/algorithms/int_power.hpp and src/utils/algorithms/sort.hpp. *)
From Coq Require Import Arith List ZArith Bool.
From Verif Require Import Prelude.
Import ListNotations.

(** ** Integral types *)
(** An integral type is given by its number of bits and its signedness ([bool] is not covered).
    [int] has 32 bits. *)
Record int_type := mkInt { ibits : Z; isigned : bool }.
Definition type_int : int_type := mkInt 32 true.

Definition imin (t : int_type) : Z := if isigned t then (- 2 ^ (ibits t - 1))%Z else 0%Z.
Definition imax (t : int_type) : Z := if isigned t then (2 ^ (ibits t - 1) - 1)%Z else (2 ^ ibits t - 1)%Z.

(** Conversion of a value to [t]: modulo 2^bits. *)
Definition conv (t : int_type) (z : Z) : Z :=
  if isigned t then ((z + 2 ^ (ibits t - 1)) mod 2 ^ ibits t - 2 ^ (ibits t - 1))%Z else (z mod 2 ^ ibits t)%Z.

(** Multiplication in [t]: overflow is undefined for signed types, wraps around for others. *)
Definition imul (t : int_type) (a b : Z) : res Z :=
  if isigned t
  then if ((imin t <=? a * b) && (a * b <=? imax t))%Z then Ok (a * b)%Z else UB
  else Ok (conv t (a * b)).

(** Common type of [t] and [int] (usual arithmetic conversions). *)
Definition common_int (t : int_type) : int_type := if (ibits t <? 32)%Z then type_int else t.

(** src/utils/algorithms/int_power.hpp:33-46 [IntPower]. Division and remainder truncate towards
    zero. *)
Fixpoint IntPower (fuel : nat) (t : int_type) (base power : Z) : res Z :=
  match fuel with
  | O => Diverge
  | S f =>
      if (power =? 0)%Z then Ok 1%Z
      else if (power =? 1)%Z then Ok base
      else
        do tmp64 <- IntPower f t base (Z.quot power 2);
        let tmp := conv type_int tmp64 in
        if (Z.rem power 2 =? 0)%Z
        then do r <- imul type_int tmp tmp; Ok (conv t r)
        else
          let c := common_int t in
          do m <- imul c (conv c base) (conv c tmp);
          do r <- imul c m (conv c tmp);
          Ok (conv t r)
  end.

(** ** Sorting *)
Section Sort.
Context {T : Type} (lt : T -> T -> bool).

(** The comparison passed to [std::stable_sort], src/utils/algorithms/sort.hpp:43. *)
Definition index_less (v : list T) (i1 i2 : nat) : res bool :=
  do a <- get v i1; do b <- get v i2; Ok (lt a b).

(** [std::stable_sort], as insertion sort. Any algorithm that meets the requirements of the
    standard returns the same list (theorem C54_unique). *)
Fixpoint sort_insert (less : nat -> nat -> res bool) (x : nat) (l : list nat) : res (list nat) :=
  match l with
  | [] => Ok [x]
  | y :: t => do b <- less y x;
              if b then do t' <- sort_insert less x t; Ok (y :: t') else Ok (x :: y :: t)
  end.
Fixpoint stable_sort (less : nat -> nat -> res bool) (l : list nat) : res (list nat) :=
  match l with
  | [] => Ok []
  | x :: t => do t' <- stable_sort less t; sort_insert less x t'
  end.

(** src/utils/algorithms/sort.hpp:38-45 [IndexListSort] *)
Definition IndexListSort (v : list T) : res (list nat) :=
  stable_sort (index_less v) (seq 0 (length v)).
End Sort.
