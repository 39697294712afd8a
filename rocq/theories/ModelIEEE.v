(** Splines computed in binary floating-point arithmetic with a bounded exponent range.

    Unlike ModelRound.v, results that are too large are not numbers any more (overflow) and small
    results lose digits (gradual underflow). A format has [prec] binary digits, the finest spacing
    2^[emin] and the largest exponent [emax]; IEEE 754 binary64 and binary32 are the instances
    below. Every operation returns a number nearest to the exact result, ties broken by any rule.

    Simplifications: infinities and NaN are one value [Exc], every comparison with [Exc] is false,
    and zero has no sign. *)
From Coq Require Import Arith List NArith ZArith Bool Reals.
From Verif Require Import Prelude Scalar ModelBasis ModelSpline ModelRational.
Import ListNotations.
Local Open Scope R_scope.

Record format := Format { prec : nat; emin : Z; emax : Z }.
(** double and float. *)
Definition binary64 : format := Format 53 (-1074) 971.
Definition binary32 : format := Format 24 (-149) 104.
(** What the theorems need of a format: both instances satisfy it. *)
Definition reasonable (F : format) : Prop :=
  (0 < prec F)%nat /\ (emin F <= - (2 * Z.of_nat (prec F)))%Z /\ (Z.of_nat (prec F) <= emax F)%Z.

(** The numbers m 2^e with at most [prec] digits and e not below [emin]. *)
Definition on_grid (F : format) (x : R) : Prop :=
  exists m e : Z, (Z.abs m < 2 ^ Z.of_nat (prec F))%Z /\ (emin F <= e)%Z /\ x = IZR m * powerRZ 2 e.
(** The largest finite number and the spacing of the smallest numbers. *)
Definition omega (F : format) : R := (2 ^ prec F - 1) * powerRZ 2 (emax F).
Definition tiny (F : format) : R := powerRZ 2 (emin F).
(** The finite numbers of the format. *)
Definition machine (F : format) (x : R) : Prop := on_grid F x /\ Rabs x <= omega F.

Definition nearest_on_grid (F : format) (rnd : R -> R) : Prop :=
  forall x, on_grid F (rnd x) /\ forall y, on_grid F y -> Rabs (rnd x - x) <= Rabs (y - x).

(** Values of a floating-point variable: a finite number, or an infinity or NaN. *)
Inductive fl := Fin (x : R) | Exc.

(** Rounding, then overflow when the rounded value exceeds the largest finite number. *)
Definition deliver (F : format) (rnd : R -> R) (x : R) : fl :=
  if Rle_dec (Rabs (rnd x)) (omega F) then Fin (rnd x) else Exc.
Definition fl_lift2 (f : R -> R -> fl) (a b : fl) : fl :=
  match a, b with Fin x, Fin y => f x y | _, _ => Exc end.

Definition SOps_ieee (F : format) (rnd : R -> R) : SOps fl := {|
  s0 := Fin 0; s1 := Fin 1;
  sadd := fl_lift2 (fun x y => deliver F rnd (x + y));
  ssub := fl_lift2 (fun x y => deliver F rnd (x - y));
  smul := fl_lift2 (fun x y => deliver F rnd (x * y));
  sopp := fun a => match a with Fin x => Fin (- x) | Exc => Exc end;
  sdiv := fl_lift2 (fun x y => if Req_EM_T y 0 then Exc else deliver F rnd (x / y));
  sltb := fun a b => match a, b with Fin x, Fin y => if Rlt_dec x y then true else false | _, _ => false end;
  seqb := fun a b => match a, b with Fin x, Fin y => if Req_EM_T x y then true else false | _, _ => false end;
  sofN := fun k => deliver F rnd (IZR (Z.of_N k))
|}.

(** Points and splines with finite coordinates. *)
Fixpoint fin_point (d : nat) : point R d -> point fl d :=
  match d with O => fun _ => tt | S d' => fun q => (Fin (fst q), fin_point d' (snd q)) end.
Definition fin_spline {d} (s : spline (point R d)) : spline (point fl d) :=
  mkSpline (degrees s) (number_of_control_points s) (index_offsets s) (map (fin_point d) (control_points s)).
Definition fin_spline_s (s : spline R) : spline fl := mkSpline (degrees s) (number_of_control_points s) (index_offsets s) (map Fin (control_points s)).

(** src/bezier_spline.inc:328-370 (Evaluate), 1323-1416 (SplitAtPosition) and 149-227
    (OrderElevateAlongParametricDimension) in this arithmetic. *)
Section IEEE.
Context (F : format) (rnd : R -> R).
Definition Evaluate_ieee {d} (s : spline (point fl d)) (xs : list fl) : res (point fl d) :=
  Evaluate (o := SOps_ieee F rnd) (ov := VOps_point fl d (o := SOps_ieee F rnd)) s xs.
Definition Evaluate_ieee_s (s : spline fl) (xs : list fl) : res fl :=
  Evaluate (o := SOps_ieee F rnd) (ov := VOps_scalar fl (o := SOps_ieee F rnd)) s xs.
Definition SplitAtPosition_ieee {d} (s : spline (point fl d)) (x : fl) (k : nat) : res (list (spline (point fl d))) :=
  SplitAtPosition (o := SOps_ieee F rnd) (ov := VOps_point fl d (o := SOps_ieee F rnd)) s x k.
Definition SplitAtPosition_ieee_s (s : spline fl) (x : fl) (k : nat) : res (list (spline fl)) :=
  SplitAtPosition (o := SOps_ieee F rnd) (ov := VOps_scalar fl (o := SOps_ieee F rnd)) s x k.
Definition OrderElevate_ieee {d} (s : spline (point fl d)) (k : nat) : res (spline (point fl d)) :=
  OrderElevate (o := SOps_ieee F rnd) (ov := VOps_point fl d (o := SOps_ieee F rnd)) s k.
Definition OrderElevate_ieee_s (s : spline fl) (k : nat) : res (spline fl) :=
  OrderElevate (o := SOps_ieee F rnd) (ov := VOps_scalar fl (o := SOps_ieee F rnd)) s k.
End IEEE.
