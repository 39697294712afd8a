(** Sizes and indices of class BezierSpline in 64 bits (src/bezier_spline.hpp, src/bezier_spline.inc).

    Elsewhere in the model std::size_t is unbounded.  Here every sum and every product of sizes is
    reduced modulo 2^64 as the program does.  [limit] is std::vector::max_size() of the control-point type:
    resize() to more elements throws std::length_error. *)
From Coq Require Import Arith Lia List ZArith NArith Bool.
From Verif Require Import Prelude Scalar ModelBasis ModelSpline.
Import ListNotations.

(** Conversion to std::size_t. *)
Definition w64 (n : nat) : nat := Z.to_nat (Z.of_nat n mod 2 ^ 64).
(** Difference of two sizes. *)
Definition w64_sub (a b : nat) : nat := Z.to_nat ((Z.of_nat a - Z.of_nat b) mod 2 ^ 64).
(** The result of an operation on [int]s, which must not overflow. *)
Definition int_ (z : Z) : res Z := if ((- 2 ^ 31 <=? z) && (z <? 2 ^ 31))%Z then Ok z else UB.

(** src/utils/fastbinomialcoefficient.hpp:63-67  choose.  Both arguments are converted to
    [unsigned int], before the assertion. *)
Definition choose_64 (MAXB : nat) (n i : Z) : res N :=
  do _ <- assert_ (u32 n <? Z.of_nat MAXB)%Z;
  do t <- calculate_table MAXB;
  get t (Z.to_nat (u32 (u32 (u32 n * u32 (u32 n + 1)) / 2 + u32 i))).

(** src/bezier_spline.inc:25-32  UpdateIndexOffsets_ *)
Definition UpdateIndexOffsets_64 (degs : list nat) : res (list nat) :=
  do offs <- set (repeat 0 (length degs)) 0 1;
  for_up 1 (length degs - 1) (fun i offs =>
    do a <- get offs (i - 1);
    do p <- get degs (i - 1);
    set offs i (w64 (a * w64 (p + 1)))) offs.

(** src/bezier_spline.hpp:189-191, 201-203, 230-232 *)
Definition count_points_64 (degs : list nat) : res nat :=
  for_up 0 (length degs) (fun i n => do p <- get degs i; Ok (w64 (n * w64 (p + 1)))) 1.

Section Generic.
Context (limit : nat) {T V : Type} {o : SOps T} {ov : VOps T V}.

(** src/bezier_spline.hpp:185-194  BezierSpline(deg) *)
Definition Spline_deg_64 (deg : list nat) : res (spline V) :=
  do n <- count_points_64 deg;
  if limit <? n then Throw else
  do offs <- UpdateIndexOffsets_64 deg;
  Ok (mkSpline deg n offs (repeat v0 n)).

(** src/bezier_spline.hpp:196-207  BezierSpline(deg, points) *)
Definition Spline_deg_points_64 (deg : list nat) (points : list V) : res (spline V) :=
  do n <- count_points_64 deg;
  do offs <- UpdateIndexOffsets_64 deg;
  do _ <- assert_ (n =? length points);
  Ok (mkSpline deg n offs points).

(** src/bezier_spline.hpp:226-235  UpdateDegrees *)
Definition UpdateDegrees_64 (s : spline V) (new_degrees : list nat) : res (spline V) :=
  do n <- count_points_64 new_degrees;
  if limit <? n then Throw else
  do offs <- UpdateIndexOffsets_64 new_degrees;
  Ok (mkSpline new_degrees n offs (resize v0 (control_points s) n)).

(** src/bezier_spline.inc:34-44  LocalToGlobalIndex (division and remainder by zero are undefined) *)
Definition LocalToGlobalIndex_64 (s : spline V) (local_index : nat) : res (list nat) :=
  for_up 0 (length (degrees s)) (fun i l =>
    do off <- get (index_offsets s) i;
    do _ <- (if off =? 0 then UB else Ok tt);
    do p <- get (degrees s) i;
    do _ <- (if w64 (p + 1) =? 0 then UB else Ok tt);
    set l i ((local_index / off) mod w64 (p + 1))) (repeat 0 (length (degrees s))).

(** src/bezier_spline.inc:46-58  GlobalToLocalIndex *)
Definition GlobalToLocalIndex_64 (s : spline V) (local_index : list nat) : res nat :=
  do c <- get local_index 0;
  for_up 1 (length (degrees s) - 1) (fun i c =>
    do off <- get (index_offsets s) i;
    do l <- get local_index i;
    Ok (w64 (c + w64 (off * l)))) c.

(** src/bezier_spline.inc:133-147  ControlPoint(std::array) *)
Definition ControlPoint_64 (s : spline V) (index : list nat) : res V :=
  do i <- GlobalToLocalIndex_64 s index; get (control_points s) i.
Definition SetControlPoint_64 (s : spline V) (index : list nat) (v : V) : res (spline V) :=
  do i <- GlobalToLocalIndex_64 s index;
  do c <- set (control_points s) i v; Ok (with_cps s c).
End Generic.

Section Product.
Context (limit MAXB : nat).
Context {T V1 V2 V3 : Type} {o : SOps T} {o3 : VOps T V3}.
Context (pmul : V1 -> V2 -> V3).

(** src/bezier_spline.inc:60-105  CombineControlPointsForProduct_.  Degrees and indices are converted to
    [int]; the sum and the difference of two [int]s must not overflow. *)
Fixpoint CombineControlPoints_64 (remaining : nat) (P : spline V1) (Q : spline V2)
  (ctpsIndex : list nat) (factor : T) (indices : list nat) (this : spline V3)
  : res (spline V3) :=
  match remaining with
  | O => UB
  | S rem' =>
    let depth := length indices in
    do k <- get ctpsIndex depth;
    do m <- get (degrees P) depth;
    do n <- get (degrees Q) depth;
    let k := i32 (Z.of_nat k) in
    let m := i32 (Z.of_nat m) in
    let n := i32 (Z.of_nat n) in
    do first <- int_ (k - n);
    let first := Z.to_nat (Z.max 0 first) in
    for_up first (Z.to_nat (Z.min k m + 1 - Z.of_nat first)) (fun i this =>
      do cm <- choose_64 MAXB m (Z.of_nat i);
      do cn <- choose_64 MAXB n (k - Z.of_nat i);
      do mn <- int_ (m + n);
      do cmn <- choose_64 MAXB mn k;
      do lFactor <- divS (sofN (cm * cn mod 2 ^ 64)%N) (sofN cmn);
      match rem' with
      | O =>
        let ind_lhs := indices ++ [i] in
        let ind_rhs := map (fun '(a, b) => w64_sub a b) (combine ctpsIndex ind_lhs) in
        do c <- ControlPoint_64 this ctpsIndex;
        do a <- ControlPoint_64 P ind_lhs;
        do b <- ControlPoint_64 Q ind_rhs;
        SetControlPoint_64 this ctpsIndex
          (vadd c (vscale lFactor (vscale factor (pmul a b))))
      | S _ => CombineControlPoints_64 rem' P Q ctpsIndex (smul factor lFactor) (indices ++ [i]) this
      end) this
  end.

(** src/bezier_spline.inc:873-906  operator*(spline) *)
Definition spline_mul_64 (s : spline V1) (rhs : spline V2) : res (spline V3) :=
  do pd <- for_up 0 (length (degrees s)) (fun i pd =>
    do a <- get (degrees s) i;
    do b <- get (degrees rhs) i;
    set pd i (w64 (a + b))) (repeat 0 (length (degrees s)));
  do r <- Spline_deg_64 limit pd;
  for_up 0 (number_of_control_points r) (fun i r =>
    do idx <- LocalToGlobalIndex_64 r i;
    CombineControlPoints_64 (length (degrees s)) s rhs idx s1 [] r) r.
End Product.
