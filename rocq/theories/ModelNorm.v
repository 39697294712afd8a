(** Real-valued and integral members of class Point (src/point.hpp). *)
From Coq Require Import Arith List ZArith Reals.
From Verif Require Import Prelude Scalar ModelPoint.
Import ListNotations.

(** src/point.hpp:169-172  EuclidianNorm ([std::sqrt]) *)
Definition point_norm {d} (p : point R d) : res R :=
  do n <- point_sqnorm p; Ok (sqrt n).

(** Points with an integral BaseType: built-in integer arithmetic without overflow;
    division truncates towards zero. *)
Section Integral.
Context {d : nat}.

(** src/point.hpp:108-112  operator*= (scalar) *)
Definition zpoint_scale_assign (p : point Z d) (scale : Z) : res (point Z d) :=
  for_up 0 d (fun i p => do a <- pget d p i; pset d p i (a * scale)%Z) p.

(** src/point.hpp:126-138  operator/= and operator/ (scalar); an integer division by zero
    is undefined behaviour *)
Definition zpoint_div_assign (p : point Z d) (scale : Z) : res (point Z d) :=
  if (scale =? 0)%Z then UB else
  let inv_scale := Z.quot 1 scale in zpoint_scale_assign p inv_scale.
Definition zpoint_div (p : point Z d) (scale : Z) := zpoint_div_assign p scale.
End Integral.
