(** Model of src/utils/computational_differentiation/algo_diff_type.hpp and .inc.

    Scalars are real numbers (no rounding, no overflow); a result that is not finite in the exact
    computation is the outcome [NonFinite]. The type parameter [Scalar] is an instance of
    [ADScalar], either [R] (for float, double) or again an [AlgoDiffType] (nested use). *)
From Coq Require Import Arith List Bool Reals.
From Verif Require Import Prelude.
Import ListNotations.
Local Open Scope R_scope.

(** Operations of the type parameter [Scalar]. *)
Class ADScalar (S : Type) := {
  a_arith : bool;                       (* std::is_arithmetic_v<Scalar> *)
  a_zero : S;                           (* Scalar{} *)
  a_lit : R -> S;                       (* conversion of a double, Scalar{1.}, d_[i] = 1.0 *)
  a_add : S -> S -> res S;
  a_sub : S -> S -> res S;
  a_mul : S -> S -> res S;
  a_div : S -> S -> res S;
  a_neg : S -> res S;
  a_add_l : R -> S -> res S;            (* double + Scalar *)
  a_sub_l : R -> S -> res S;            (* double - Scalar *)
  a_sub_r : S -> R -> res S;            (* Scalar - double *)
  a_mul_r : S -> R -> res S;            (* Scalar * double *)
  a_div_l : R -> S -> res S;            (* double / Scalar *)
  a_gt_r : S -> R -> bool;              (* Scalar > double *)
  a_ge_r : S -> R -> bool;
  a_lt_r : S -> R -> bool;
  a_le_r : S -> R -> bool;
  a_eq_r : S -> R -> bool;
  a_exp : S -> res S;
  a_log : S -> res S;
  a_log10 : S -> res S;
  a_sqrt : S -> res S;
  a_pow : S -> S -> res S;
  a_sin : S -> res S;
  a_cos : S -> res S;
  a_tan : S -> res S;
  a_asin : S -> res S;
  a_acos : S -> res S;
  a_atan : S -> res S
}.

(** ** The standard functions on double *)
Definition is_zero (x : R) : bool := if Req_EM_T x 0 then true else false.
Definition gtb (x y : R) : bool := if Rlt_dec y x then true else false.
Definition geb (x y : R) : bool := if Rle_dec y x then true else false.
Definition eqb (x y : R) : bool := if Req_EM_T x y then true else false.
Definition fdiv (x y : R) : res R := if is_zero y then NonFinite else Ok (x / y).
Definition std_log (x : R) : res R := if gtb x 0 then Ok (ln x) else NonFinite.
Definition std_log10 (x : R) : res R := if gtb x 0 then Ok (ln x / ln 10) else NonFinite.
Definition std_sqrt (x : R) : res R := if geb x 0 then Ok (sqrt x) else NonFinite.
Definition std_tan (x : R) : res R := if is_zero (cos x) then NonFinite else Ok (tan x).
Definition std_asin (x : R) : res R := if geb 1 (Rabs x) then Ok (asin x) else NonFinite.
Definition std_acos (x : R) : res R := if geb 1 (Rabs x) then Ok (acos x) else NonFinite.
(** [std::pow]: negative bases with integral exponents only. *)
Definition std_pow (x p : R) : res R :=
  if gtb x 0 then Ok (Rpower x p)
  else if is_zero x then
    if is_zero p then Ok 1 else if gtb p 0 then Ok 0 else NonFinite
  else if eqb (IZR (Int_part p)) p then Ok (powerRZ x (Int_part p)) else NonFinite.

#[export] Instance ADScalar_R : ADScalar R := {|
  a_arith := true;
  a_zero := 0;
  a_lit := fun x => x;
  a_add := fun x y => Ok (x + y);
  a_sub := fun x y => Ok (x - y);
  a_mul := fun x y => Ok (x * y);
  a_div := fdiv;
  a_neg := fun x => Ok (- x);
  a_add_l := fun x y => Ok (x + y);
  a_sub_l := fun x y => Ok (x - y);
  a_sub_r := fun x y => Ok (x - y);
  a_mul_r := fun x y => Ok (x * y);
  a_div_l := fdiv;
  a_gt_r := gtb;
  a_ge_r := geb;
  a_lt_r := fun x y => gtb y x;
  a_le_r := fun x y => geb y x;
  a_eq_r := eqb;
  a_exp := fun x => Ok (exp x);
  a_log := std_log;
  a_log10 := std_log10;
  a_sqrt := std_sqrt;
  a_pow := std_pow;
  a_sin := fun x => Ok (sin x);
  a_cos := fun x => Ok (cos x);
  a_tan := std_tan;
  a_asin := std_asin;
  a_acos := std_acos;
  a_atan := fun x => Ok (atan x)
|}.

(** ** AlgoDiffType *)
(** algo_diff_type.hpp:95-101. [d_] is a [std::vector] or [std::array]. *)
Record adt (S : Type) := mkADT { ad_v : S; ad_d : list S }.
Arguments mkADT {S} ad_v ad_d.
Arguments ad_v {S} a.
Arguments ad_d {S} a.

Section AD.
Context {S : Type} {os : ADScalar S}.
Implicit Types a b : adt S.

(** algo_diff_type.hpp:113-118, 121-124: a value without derivatives *)
Definition AD_constant (n : nat) (value : S) : adt S := mkADT value (repeat a_zero n).

(** algo_diff_type.hpp:136-144, 153-159 with [SetActiveComponent], 189-192 *)
Definition AD_input (n : nat) (value : S) (active_component : nat) : res (adt S) :=
  let d := repeat a_zero n in
  do _ <- assert_ (active_component <? length d)%nat;
  do d <- set (repeat a_zero (length d)) active_component (a_lit 1);
  Ok (mkADT value d).

(** Loop [for i: d_[i] = f(d_[i])] and [for i: d_[i] = f(d_[i], e[i])]. *)
Definition each (f : S -> res S) (d : list S) : res (list S) :=
  for_up 0 (length d) (fun i d => do x <- get d i; do y <- f x; set d i y) d.
Definition each2 (f : S -> S -> res S) (d e : list S) : res (list S) :=
  for_up 0 (length d) (fun i d => do x <- get d i; do z <- get e i; do y <- f x z; set d i y) d.
Definition same_number a b : res unit := assert_ (length (ad_d b) =? length (ad_d a))%nat.

(** algo_diff_type.inc:28-63 *)
Definition AD_add_assign a b : res (adt S) :=
  do _ <- same_number a b;
  do v <- a_add (ad_v a) (ad_v b);
  do d <- each2 a_add (ad_d a) (ad_d b);
  Ok (mkADT v d).
Definition AD_add a b : res (adt S) := AD_add_assign a b.
Definition AD_add_scalar a (s : S) : res (adt S) :=
  do v <- a_add (ad_v a) s; Ok (mkADT v (ad_d a)).

(** algo_diff_type.inc:65-75 *)
Definition AD_neg a : res (adt S) :=
  do v <- a_neg (ad_v a); do d <- each a_neg (ad_d a); Ok (mkADT v d).

(** algo_diff_type.inc:77-110 *)
Definition AD_sub_assign a b : res (adt S) :=
  do v <- a_sub (ad_v a) (ad_v b);
  do d <- each2 a_sub (ad_d a) (ad_d b);
  Ok (mkADT v d).
Definition AD_sub a b : res (adt S) := do _ <- same_number a b; AD_sub_assign a b.
Definition AD_sub_scalar a (s : S) : res (adt S) :=
  do v <- a_sub (ad_v a) s; Ok (mkADT v (ad_d a)).

(** algo_diff_type.inc:112-151 *)
Definition AD_mul_assign a b : res (adt S) :=
  do _ <- same_number a b;
  do d <- each2 (fun x z => do l <- a_mul z (ad_v a); do r <- a_mul (ad_v b) x; a_add l r) (ad_d a) (ad_d b);
  do v <- a_mul (ad_v a) (ad_v b);
  Ok (mkADT v d).
Definition AD_mul a b : res (adt S) := AD_mul_assign a b.
Definition AD_mul_scalar a (s : S) : res (adt S) :=
  do v <- a_mul (ad_v a) s; do d <- each (fun x => a_mul x s) (ad_d a); Ok (mkADT v d).

(** algo_diff_type.inc:153-194 *)
Definition AD_div_assign a b : res (adt S) :=
  do _ <- same_number a b;
  do sq <- a_mul (ad_v b) (ad_v b);
  do inv <- a_div_l 1 sq;
  do d <- each2 (fun x z => do l <- a_mul (ad_v b) x; do r <- a_mul z (ad_v a); do m <- a_sub l r; a_mul m inv)
            (ad_d a) (ad_d b);
  do v <- a_div (ad_v a) (ad_v b);
  Ok (mkADT v d).
Definition AD_div a b : res (adt S) := AD_div_assign a b.
Definition AD_div_scalar a (s : S) : res (adt S) :=
  do inv <- a_div_l 1 s;
  do v <- a_mul (ad_v a) inv; do d <- each (fun x => a_mul x inv) (ad_d a); Ok (mkADT v d).

(** algo_diff_type.inc:207-236 *)
Definition scalar_add (s : S) b : res (adt S) := AD_add_scalar b s.
Definition scalar_sub (s : S) b : res (adt S) := do m <- AD_neg b; AD_add_scalar m s.
Definition scalar_mul (s : S) b : res (adt S) := AD_mul_scalar b s.
Definition scalar_div (s : S) b : res (adt S) :=
  do ns <- a_neg s;
  do sq <- a_mul (ad_v b) (ad_v b);
  do deriv <- a_div ns sq;
  do nd <- a_neg deriv;
  do v <- a_mul (ad_v b) nd;
  do d <- each (fun x => a_mul x deriv) (ad_d b);
  Ok (mkADT v d).

(** algo_diff_type.inc:238-252 *)
Definition AD_exp a : res (adt S) :=
  do tmp <- a_exp (ad_v a);
  AD_mul_scalar (mkADT (a_lit 1) (ad_d a)) tmp.

(** algo_diff_type.inc:254-258 *)
Definition AD_abs a : res (adt S) := if a_gt_r (ad_v a) 0 then Ok a else AD_neg a.

(** algo_diff_type.inc:260-277 *)
Definition AD_pow_scalar a (p : S) : res (adt S) :=
  do p1 <- a_sub_r p 1;
  do tmp <- a_pow (ad_v a) p1;
  do v <- a_mul (ad_v a) tmp;
  do d <- each (fun x => do c <- a_mul p tmp; a_mul x c) (ad_d a);
  Ok (mkADT v d).

(** algo_diff_type.inc:286-303 *)
Definition AD_sqrt a : res (adt S) :=
  do root <- a_sqrt (ad_v a);
  do half <- a_div_l (/ 2) root;
  do d <- each (fun x => a_mul x half) (ad_d a);
  Ok (mkADT root d).

(** algo_diff_type.inc:305-321 *)
Definition AD_log a : res (adt S) :=
  do temp <- a_div_l 1 (ad_v a);
  do v <- a_log (ad_v a);
  do d <- each (fun x => a_mul x temp) (ad_d a);
  Ok (mkADT v d).

(** algo_diff_type.inc:279-284 *)
Definition AD_pow a b : res (adt S) := do l <- AD_log a; do m <- AD_mul l b; AD_exp m.

(** algo_diff_type.inc:323-339 *)
Definition AD_log10 a : res (adt S) :=
  do m <- a_mul_r (ad_v a) (ln 10);
  do temp <- a_div_l 1 m;
  do v <- a_log10 (ad_v a);
  do d <- each (fun x => a_mul x temp) (ad_d a);
  Ok (mkADT v d).

(** algo_diff_type.inc:344-361 *)
Definition AD_cos a : res (adt S) :=
  do s <- a_sin (ad_v a);
  do ns <- a_neg s;
  do v <- a_cos (ad_v a);
  do d <- each (fun x => a_mul x ns) (ad_d a);
  Ok (mkADT v d).

(** algo_diff_type.inc:363-380 *)
Definition AD_sin a : res (adt S) :=
  do c <- a_cos (ad_v a);
  do v <- a_sin (ad_v a);
  do d <- each (fun x => a_mul x c) (ad_d a);
  Ok (mkADT v d).

(** algo_diff_type.inc:382-401 *)
Definition AD_tan a : res (adt S) :=
  do c <- a_cos (ad_v a);
  do aux <- a_div_l 1 c;
  do aux <- a_mul aux aux;
  do v <- a_tan (ad_v a);
  do d <- each (fun x => a_mul x aux) (ad_d a);
  Ok (mkADT v d).

(** algo_diff_type.inc:403-420. In the branch for nested types the value is computed by [cos].
    (The literal [1] in [1 - rad.v_ * rad.v_] is an [int]; the model reads it as [1.].) *)
Definition AD_acos a : res (adt S) :=
  do sq <- a_mul (ad_v a) (ad_v a);
  do m <- a_sub_l 1 sq;
  do root <- a_sqrt m;
  do aux <- a_div_l (-1) root;
  do v <- (if a_arith then a_acos (ad_v a) else a_cos (ad_v a));
  do d <- each (fun x => a_mul x aux) (ad_d a);
  Ok (mkADT v d).

(** algo_diff_type.inc:422-439 (same remark on the literal [1]) *)
Definition AD_asin a : res (adt S) :=
  do sq <- a_mul (ad_v a) (ad_v a);
  do m <- a_sub_l 1 sq;
  do root <- a_sqrt m;
  do aux <- a_div_l 1 root;
  do v <- a_asin (ad_v a);
  do d <- each (fun x => a_mul x aux) (ad_d a);
  Ok (mkADT v d).

(** algo_diff_type.inc:441-456 *)
Definition AD_atan a : res (adt S) :=
  do sq <- a_mul (ad_v a) (ad_v a);
  do m <- a_add_l 1 sq;
  do aux <- a_div_l 1 m;
  do v <- a_atan (ad_v a);
  do d <- each (fun x => a_mul x aux) (ad_d a);
  Ok (mkADT v d).
End AD.

(** ** Nested types: [AlgoDiffType<R, n>] as type parameter, [n > 0] *)
Definition ADScalar_nested (n : nat) : ADScalar (adt R) := {|
  a_arith := false;
  a_zero := AD_constant n 0;
  a_lit := fun x => AD_constant n x;
  a_add := AD_add;
  a_sub := AD_sub;
  a_mul := AD_mul;
  a_div := AD_div;
  a_neg := AD_neg;
  a_add_l := scalar_add;
  a_sub_l := scalar_sub;
  a_sub_r := AD_sub_scalar;
  a_mul_r := AD_mul_scalar;
  a_div_l := scalar_div;
  a_gt_r := fun a x => gtb (ad_v a) x;
  a_ge_r := fun a x => geb (ad_v a) x;
  a_lt_r := fun a x => gtb x (ad_v a);
  a_le_r := fun a x => geb x (ad_v a);
  a_eq_r := fun a x => eqb (ad_v a) x;
  a_exp := AD_exp;
  a_log := AD_log;
  a_log10 := AD_log10;
  a_sqrt := AD_sqrt;
  a_pow := AD_pow;
  a_sin := AD_sin;
  a_cos := AD_cos;
  a_tan := AD_tan;
  a_asin := AD_asin;
  a_acos := AD_acos;
  a_atan := AD_atan
|}.

(** ** Comparisons, for [Scalar] = double *)
(** algo_diff_type.inc:458-496: scalar on the left; each call is resolved to the member function
    named on the right-hand side. Member functions, algo_diff_type.hpp:272-306. *)
Definition AD_gt_s (a : adt R) (b : R) : bool := gtb (ad_v a) b.
Definition AD_ge_s (a : adt R) (b : R) : bool := geb (ad_v a) b.
Definition AD_lt_s (a : adt R) (b : R) : bool := gtb b (ad_v a).
Definition AD_le_s (a : adt R) (b : R) : bool := geb b (ad_v a).
Definition AD_eq_s (a : adt R) (b : R) : bool := eqb (ad_v a) b.
Definition AD_ne_s (a : adt R) (b : R) : bool := negb (eqb (ad_v a) b).
Definition s_gt_AD (s : R) (a : adt R) : bool := AD_lt_s a s.
Definition s_ge_AD (s : R) (a : adt R) : bool := AD_le_s a s.
Definition s_lt_AD (s : R) (a : adt R) : bool := AD_gt_s a s.
Definition s_le_AD (s : R) (a : adt R) : bool := AD_ge_s a s.
Definition s_eq_AD (s : R) (a : adt R) : bool := AD_eq_s a s.
Definition s_ne_AD (s : R) (a : adt R) : bool := negb (AD_eq_s a s).
Definition AD_gt (a b : adt R) : bool := gtb (ad_v a) (ad_v b).
Definition AD_ge (a b : adt R) : bool := geb (ad_v a) (ad_v b).
Definition AD_lt (a b : adt R) : bool := s_lt_AD (ad_v a) b.      (* v_ < b *)
Definition AD_le (a b : adt R) : bool := s_le_AD (ad_v a) b.      (* v_ <= b *)
Definition AD_eq (a b : adt R) : bool := eqb (ad_v a) (ad_v b).
Definition AD_ne (a b : adt R) : bool := s_ne_AD (ad_v a) b.      (* v_ != b *)
