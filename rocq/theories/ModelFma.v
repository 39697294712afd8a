(** Evaluation when the compiler may contract a multiplication and an addition into one fused
    multiply-add, which rounds once (src/bezier_spline.inc:328-370 and 372-423,
    src/rational_bezier_spline.inc:126-133; the language leaves this to the compiler, and
    GCC does it by default on processors with the instruction).

    A computation is kept as a tree of operations; its value is a relation, since at every sum or
    difference with a product in it the compiler may contract or not. Every occurrence of a
    subexpression is evaluated on its own, so a value computed once and used twice may take two
    different values here: the relation holds of at least the results a compiler can produce. *)
From Coq Require Import Arith List NArith ZArith Bool Reals.
From Verif Require Import Prelude Scalar Coord ModelBasis ModelSpline ModelRational ModelRound.
Import ListNotations.
Local Open Scope R_scope.

Inductive term : Type :=
  | Num (x : R)
  | Add (a b : term)
  | Sub (a b : term)
  | Mul (a b : term)
  | Div (a b : term)
  | Opp (a : term).

Section Meaning.
Context (rnd : R -> R).
(** [means t v]: the code compiled for [t] may return [v]. [exact t v]: [t] is a product, possibly
    negated, and [v] is its value before rounding, as a fused operation uses it. *)
Inductive means : term -> R -> Prop :=
  | m_num x : means (Num x) x
  | m_add a b x y : means a x -> means b y -> means (Add a b) (rnd (x + y))
  | m_sub a b x y : means a x -> means b y -> means (Sub a b) (rnd (x - y))
  | m_mul a b x y : means a x -> means b y -> means (Mul a b) (rnd (x * y))
  | m_div a b x y : means a x -> means b y -> y <> 0 -> means (Div a b) (rnd (x / y))
  | m_opp a x : means a x -> means (Opp a) (- x)
  | m_add_l a b v y : exact a v -> means b y -> means (Add a b) (rnd (v + y))
  | m_add_r a b x v : means a x -> exact b v -> means (Add a b) (rnd (x + v))
  | m_sub_l a b v y : exact a v -> means b y -> means (Sub a b) (rnd (v - y))
  | m_sub_r a b x v : means a x -> exact b v -> means (Sub a b) (rnd (x - v))
with exact : term -> R -> Prop :=
  | x_mul a b x y : means a x -> means b y -> exact (Mul a b) (x * y)
  | x_opp a v : exact a v -> exact (Opp a) (- v).

(** The scalar operations on trees. Comparisons are only made between numbers in the functions
    below: a division first asks whether the divisor is the constant zero. *)
Definition SOps_term : SOps term := {|
  s0 := Num 0; s1 := Num 1;
  sadd := Add; ssub := Sub; smul := Mul; sopp := Opp; sdiv := Div;
  sltb := fun a b => match a, b with Num x, Num y => if Rlt_dec x y then true else false | _, _ => false end;
  seqb := fun a b => match a, b with Num x, Num y => if Req_EM_T x y then true else false | _, _ => false end;
  sofN := fun k => Num (rnd (IZR (Z.of_N k)))
|}.

Fixpoint pcast {A B} (d : nat) (f : A -> B) : point A d -> point B d :=
  match d with O => fun _ => tt | S d' => fun p => (f (fst p), pcast d' f (snd p)) end.
Definition num_point {d} (p : point R d) : point term d := pcast d Num p.
Definition num_spline {d} (s : spline (point R d)) : spline (point term d) :=
  mkSpline (degrees s) (number_of_control_points s) (index_offsets s) (map num_point (control_points s)).
Definition num_spline_s (s : spline R) : spline term :=
  mkSpline (degrees s) (number_of_control_points s) (index_offsets s) (map Num (control_points s)).
Definition num_rational {d} (r : rspline R (point R d)) : rspline term (point term d) :=
  mkR (num_spline (weighted_spline r)) (num_spline_s (weight_function r)).
Definition means_point {d} (t : point term d) (e : point R d) : Prop :=
  forall k, (k < d)%nat -> means (coord (o := SOps_term) d t k) (coord d e k).

(** [e] is a possible result of the evaluation functions. *)
Definition Evaluate_fma {d} (s : spline (point R d)) (xs : list R) (e : point R d) : Prop :=
  exists t, Evaluate (o := SOps_term) (ov := VOps_point term d (o := SOps_term)) (num_spline s) (map Num xs) = Ok t /\
    means_point t e.
Definition Evaluate_fma_s (s : spline R) (xs : list R) (e : R) : Prop :=
  exists t, Evaluate (o := SOps_term) (ov := VOps_scalar term (o := SOps_term)) (num_spline_s s) (map Num xs) = Ok t /\
    means t e.
Definition ForwardEvaluate_fma (MAXB : nat) {d} (s : spline (point R d)) (xs : list R) (e : point R d) : Prop :=
  exists t, ForwardEvaluate (o := SOps_term) (ov := VOps_point term d (o := SOps_term)) MAXB (num_spline s) (map Num xs) = Ok t /\
    means_point t e.
Definition ForwardEvaluate_fma_s (MAXB : nat) (s : spline R) (xs : list R) (e : R) : Prop :=
  exists t, ForwardEvaluate (o := SOps_term) (ov := VOps_scalar term (o := SOps_term)) MAXB (num_spline_s s) (map Num xs) = Ok t /\
    means t e.
Definition R_Evaluate_fma {d} (r : rspline R (point R d)) (xs : list R) (e : point R d) : Prop :=
  exists t, R_Evaluate (o := SOps_term) (ov := VOps_point term d (o := SOps_term)) (num_rational r) (map Num xs) = Ok t /\
    means_point t e.
End Meaning.
