(** Expressions, their real value and the points where every operation in them is applied at a
    point of differentiability. *)
From Coq Require Import Arith List Bool Reals.
From Verif Require Import Prelude ModelAD.
Import ListNotations.
Local Open Scope R_scope.

Inductive unary := UNeg | UExp | ULog | ULog10 | USqrt | UAbs | USin | UCos | UTan | UAsin | UAcos | UAtan.
Inductive binary := BAdd | BSub | BMul | BDiv | BPow.
(** Scalar operand on the right ([e op s]) or on the left ([s op e]). *)
Inductive mixed_op := RAdd | RSub | RMul | RDiv | RPow | LAdd | LSub | LMul | LDiv.

Inductive expr :=
| EVar (i : nat)                     (* the i-th input *)
| EConst (c : R)                     (* an AlgoDiffType without derivative *)
| EUn (u : unary) (e : expr)
| EBin (b : binary) (e1 e2 : expr)
| EMix (m : mixed_op) (e : expr) (s : R).

(** ** Real value *)
(** x^p for real p: positive bases, or integral exponents. *)
Definition real_pow (x p : R) : R :=
  if Rlt_dec 0 x then exp (p * ln x)
  else if Req_EM_T (IZR (Int_part p)) p then powerRZ x (Int_part p) else 0.

Definition un_value (u : unary) (x : R) : R :=
  match u with
  | UNeg => - x | UExp => exp x | ULog => ln x | ULog10 => ln x / ln 10 | USqrt => sqrt x | UAbs => Rabs x
  | USin => sin x | UCos => cos x | UTan => tan x | UAsin => asin x | UAcos => acos x | UAtan => atan x
  end.
Definition bin_value (b : binary) (x y : R) : R :=
  match b with
  | BAdd => x + y | BSub => x - y | BMul => x * y | BDiv => x / y | BPow => exp (y * ln x)
  end.
Definition mix_value (m : mixed_op) (x s : R) : R :=
  match m with
  | RAdd => x + s | RSub => x - s | RMul => x * s | RDiv => x / s | RPow => real_pow x s
  | LAdd => s + x | LSub => s - x | LMul => s * x | LDiv => s / x
  end.
Fixpoint value (e : expr) (xs : list R) : R :=
  match e with
  | EVar i => nth i xs 0
  | EConst c => c
  | EUn u e => un_value u (value e xs)
  | EBin b e1 e2 => bin_value b (value e1 xs) (value e2 xs)
  | EMix m e s => mix_value m (value e xs) s
  end.

(** ** Points of differentiability of the operations *)
Definition un_dom (u : unary) (x : R) : Prop :=
  match u with
  | ULog | ULog10 | USqrt => 0 < x
  | UAbs => x <> 0
  | UTan => cos x <> 0
  | UAsin | UAcos => -1 < x < 1
  | _ => True
  end.
Definition bin_dom (b : binary) (x y : R) : Prop :=
  match b with BDiv => y <> 0 | BPow => 0 < x | _ => True end.
Definition mix_dom (m : mixed_op) (x s : R) : Prop :=
  match m with
  | RDiv => s <> 0
  | LDiv => x <> 0
  | RPow => 0 < x \/ exists k : Z, s = IZR k /\ (x <> 0 \/ (0 <= k)%Z)
  | _ => True
  end.
(** Only inputs that exist are used, and every operation is applied at a point of its domain where
    it is differentiable. *)
Fixpoint differentiable (e : expr) (xs : list R) : Prop :=
  match e with
  | EVar i => (i < length xs)%nat
  | EConst _ => True
  | EUn u e => differentiable e xs /\ un_dom u (value e xs)
  | EBin b e1 e2 => differentiable e1 xs /\ differentiable e2 xs /\ bin_dom b (value e1 xs) (value e2 xs)
  | EMix m e s => differentiable e xs /\ mix_dom m (value e xs) s
  end.

(** No sub-expression pow(x, 0) with x = 0. *)
Fixpoint no_zero_pow_zero (e : expr) (xs : list R) : Prop :=
  match e with
  | EVar _ | EConst _ => True
  | EUn _ e => no_zero_pow_zero e xs
  | EBin _ e1 e2 => no_zero_pow_zero e1 xs /\ no_zero_pow_zero e2 xs
  | EMix m e s => no_zero_pow_zero e xs /\ (m = RPow -> value e xs <> 0 \/ s <> 0)
  end.

(** No absolute value and no non-integral power is taken of zero. *)
Fixpoint no_corner (e : expr) (xs : list R) : Prop :=
  match e with
  | EVar _ | EConst _ => True
  | EUn u e => no_corner e xs /\ (u = UAbs -> value e xs <> 0)
  | EBin _ e1 e2 => no_corner e1 xs /\ no_corner e2 xs
  | EMix m e s => no_corner e xs /\ (m = RPow -> value e xs <> 0 \/ exists k : Z, s = IZR k)
  end.

(** ** What a user computes with AlgoDiffType *)
Definition un_ad (u : unary) : adt R -> res (adt R) :=
  match u with
  | UNeg => AD_neg | UExp => AD_exp | ULog => AD_log | ULog10 => AD_log10 | USqrt => AD_sqrt | UAbs => AD_abs
  | USin => AD_sin | UCos => AD_cos | UTan => AD_tan | UAsin => AD_asin | UAcos => AD_acos | UAtan => AD_atan
  end.
Definition bin_ad (b : binary) : adt R -> adt R -> res (adt R) :=
  match b with BAdd => AD_add | BSub => AD_sub | BMul => AD_mul | BDiv => AD_div | BPow => AD_pow end.
Definition mix_ad (m : mixed_op) (a : adt R) (s : R) : res (adt R) :=
  match m with
  | RAdd => AD_add_scalar a s | RSub => AD_sub_scalar a s | RMul => AD_mul_scalar a s | RDiv => AD_div_scalar a s
  | RPow => AD_pow_scalar a s
  | LAdd => scalar_add s a | LSub => scalar_sub s a | LMul => scalar_mul s a | LDiv => scalar_div s a
  end.
(** The [i]-th input is [AlgoDiffType(xs_i, n, i)]. *)
Fixpoint compute (e : expr) (xs : list R) : res (adt R) :=
  match e with
  | EVar i => AD_input (length xs) (nth i xs 0) i
  | EConst c => Ok (AD_constant (length xs) c)
  | EUn u e => do a <- compute e xs; un_ad u a
  | EBin b e1 e2 => do a <- compute e1 xs; do c <- compute e2 xs; bin_ad b a c
  | EMix m e s => do a <- compute e xs; mix_ad m a s
  end.
