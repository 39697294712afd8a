(** Expressions computed with nested AlgoDiffType numbers. *)
From Coq Require Import Arith List Bool Reals.
From Verif Require Import Prelude ModelAD SpecAD.
Import ListNotations.
Local Open Scope R_scope.

(** Numbers of type [AlgoDiffType<AlgoDiffType<double, n>, n>]. *)
Definition un_ad2 (n : nat) (u : unary) : adt (adt R) -> res (adt (adt R)) :=
  let os := ADScalar_nested n in
  match u with
  | UNeg => AD_neg | UExp => AD_exp | ULog => AD_log | ULog10 => AD_log10 | USqrt => AD_sqrt | UAbs => AD_abs
  | USin => AD_sin | UCos => AD_cos | UTan => AD_tan | UAsin => AD_asin | UAcos => AD_acos | UAtan => AD_atan
  end.
Definition bin_ad2 (n : nat) (b : binary) : adt (adt R) -> adt (adt R) -> res (adt (adt R)) :=
  let os := ADScalar_nested n in
  match b with BAdd => AD_add | BSub => AD_sub | BMul => AD_mul | BDiv => AD_div | BPow => AD_pow end.
(** A scalar operand is an inner number without derivatives. *)
Definition mix_ad2 (n : nat) (m : mixed_op) (a : adt (adt R)) (c : R) : res (adt (adt R)) :=
  let os := ADScalar_nested n in
  let s := AD_constant n c in
  match m with
  | RAdd => AD_add_scalar a s | RSub => AD_sub_scalar a s | RMul => AD_mul_scalar a s | RDiv => AD_div_scalar a s
  | RPow => AD_pow_scalar a s
  | LAdd => scalar_add s a | LSub => scalar_sub s a | LMul => scalar_mul s a | LDiv => scalar_div s a
  end.
(** The [i]-th input is [AlgoDiffType(AlgoDiffType(xs_i, n, i), n, i)]. *)
Fixpoint compute2 (e : expr) (xs : list R) : res (adt (adt R)) :=
  let n := length xs in
  match e with
  | EVar i => do v <- AD_input n (nth i xs 0) i; AD_input (os := ADScalar_nested n) n v i
  | EConst c => Ok (AD_constant (os := ADScalar_nested n) n (AD_constant n c))
  | EUn u e => do a <- compute2 e xs; un_ad2 n u a
  | EBin b e1 e2 => do a <- compute2 e1 xs; do c <- compute2 e2 xs; bin_ad2 n b a c
  | EMix m e s => do a <- compute2 e xs; mix_ad2 n m a s
  end.

(** No arc cosine, and powers with a scalar exponent of positive numbers only. *)
Fixpoint nested_dom (e : expr) (xs : list R) : Prop :=
  match e with
  | EVar _ | EConst _ => True
  | EUn u e => nested_dom e xs /\ u <> UAcos
  | EBin _ e1 e2 => nested_dom e1 xs /\ nested_dom e2 xs
  | EMix m e s => nested_dom e xs /\ (m = RPow -> 0 < value e xs)
  end.
