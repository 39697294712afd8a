(** Histories: the splines that can be produced by finitely many calls of the library. *)
From Coq Require Import Arith List NArith.
From Verif Require Import Prelude Scalar ModelBasis ModelSpline ModelPoint ModelRational.
Import ListNotations.

(** src/bezier_spline.hpp:180  default constructor *)
Definition Spline_default {V} (dim : nat) : spline V := mkSpline (repeat 0 dim) 0 (repeat 0 dim) [].

(** [built MAXB s] ([rbuilt MAXB r]): the spline [s] (rational spline [r]) is the result of a finite
    sequence of calls, none of which is the default constructor. The control-point types may change
    along the way. The loop bounds [fuel] and the operands are arbitrary. *)
Inductive built (MAXB : nat) {T} {o : SOps T} : forall V, VOps T V -> spline V -> Prop :=
(* constructors and UpdateDegrees (on any object) *)
| b_deg V ov deg s : Spline_deg deg = Ok s -> built MAXB V ov s
| b_points V ov deg pts s : Spline_deg_points deg pts = Ok s -> built MAXB V ov s
| b_update V ov s0 deg s : UpdateDegrees s0 deg = Ok s -> built MAXB V ov s
(* writing through ControlPoint *)
| b_write V ov s idx v s' : built MAXB V ov s -> SetControlPoint s idx v = Ok s' -> built MAXB V ov s'
| b_write_variadic V ov s idx v s' : built MAXB V ov s -> SetControlPoint_variadic s idx v = Ok s' -> built MAXB V ov s'
(* writing elements through GetControlPoints (no resize) *)
| b_assign V ov s c : built MAXB V ov s -> length c = length (control_points s) -> built MAXB V ov (with_cps s c)
(* refinement and derivatives *)
| b_elevate V ov s k s' : built MAXB V ov s -> OrderElevate s k = Ok s' -> built MAXB V ov s'
| b_derivative V ov s orders s' : built MAXB V ov s -> DerivativeWRT MAXB s orders = Ok s' -> built MAXB V ov s'
| b_split V ov s plane k l s' : built MAXB V ov s -> SplitAtPosition s plane k = Ok l -> In s' l -> built MAXB V ov s'
| b_splits V ov s planes k l s' : built MAXB V ov s -> SplitAtPositions s planes k = Ok l -> In s' l -> built MAXB V ov s'
(* arithmetic *)
| b_scale V ov s c s' : built MAXB V ov s -> scale_assign s c = Ok s' -> built MAXB V ov s'
| b_shift V ov s p s' : built MAXB V ov s -> shift_assign s p = Ok s' -> built MAXB V ov s'
| b_unshift V ov s p s' : built MAXB V ov s -> unshift_assign s p = Ok s' -> built MAXB V ov s'
| b_self V ov op k s s' : built MAXB V ov s -> map_points_self op k s = Ok s' -> built MAXB V ov s'
| b_neg V ov s s' : built MAXB V ov s -> spline_neg s = Ok s' -> built MAXB V ov s'
| b_point_minus V ov s p s' : built MAXB V ov s -> point_minus_spline p s = Ok s' -> built MAXB V ov s'
| b_add V ov fuel s t s' : built MAXB V ov s -> built MAXB V ov t -> spline_add fuel s t = Ok s' -> built MAXB V ov s'
| b_add_assign V ov fuel s t s' : built MAXB V ov s -> built MAXB V ov t -> spline_add_assign fuel s t = Ok s' ->
    built MAXB V ov s'
| b_sub V ov fuel s t s' : built MAXB V ov s -> built MAXB V ov t -> spline_sub fuel s t = Ok s' -> built MAXB V ov s'
| b_sub_assign V ov fuel s t s' : built MAXB V ov s -> built MAXB V ov t -> spline_sub_assign fuel s t = Ok s' ->
    built MAXB V ov s'
| b_mul V1 V2 V3 (ov1 : VOps T V1) (ov2 : VOps T V2) (ov3 : VOps T V3) pmul (s : spline V1) (t : spline V2) s' :
    built MAXB V1 ov1 s -> built MAXB V2 ov2 t -> spline_mul MAXB pmul s t = Ok s' -> built MAXB V3 ov3 s'
| b_power s n s' : built MAXB T (VOps_scalar T) s -> RaisePower MAXB s n = Ok s' -> built MAXB T (VOps_scalar T) s'
(* coordinates and the unit cube *)
| b_extract d s k s' : built MAXB (point T d) (VOps_point T d) s -> ExtractDimension s k = Ok s' -> built MAXB T (VOps_scalar T) s'
| b_transpose d s t sc s' : built MAXB (point T d) (VOps_point T d) s -> TransposeAndScale s t sc = Ok s' ->
    built MAXB (point T d) (VOps_point T d) s'
| b_fit d s s' : built MAXB (point T d) (VOps_point T d) s -> FitIntoUnitCube s = Ok s' ->
    built MAXB (point T d) (VOps_point T d) s'
(* composition *)
| b_compose V ov d s t s' : built MAXB V ov s -> built MAXB (point T d) (VOps_point T d) t -> Compose MAXB s t = Ok s' ->
    built MAXB V ov s'
| b_sensitivity V (ov : VOps T V) d s t l s' : built MAXB V ov s -> built MAXB (point T d) (VOps_point T d) t ->
    ComposeSensitivity MAXB s t = Ok l -> In s' l -> built MAXB T (VOps_scalar T) s'
(* numerator and denominator of a rational spline *)
| b_numerator V ov r : rbuilt MAXB V ov r -> built MAXB V ov (weighted_spline r)
| b_denominator V ov r : rbuilt MAXB V ov r -> built MAXB T (VOps_scalar T) (weight_function r)
with rbuilt (MAXB : nat) {T} {o : SOps T} : forall V, VOps T V -> rspline T V -> Prop :=
| r_mk V ov u w r : built MAXB V ov u -> built MAXB T (VOps_scalar T) w -> R_mk u w = Ok r -> rbuilt MAXB V ov r
| r_of_spline V ov s r : built MAXB V ov s -> R_of_spline s = Ok r -> rbuilt MAXB V ov r
| r_deg V ov deg r : R_deg deg = Ok r -> rbuilt MAXB V ov r
| r_points V ov deg pts ws r : R_deg_points deg pts ws = Ok r -> rbuilt MAXB V ov r
| r_update V ov r0 deg r : R_UpdateDegrees r0 deg = Ok r -> rbuilt MAXB V ov r
(* writing weighted control points and weights through the references handed out *)
| r_write V ov r idx v u : rbuilt MAXB V ov r -> SetControlPoint (weighted_spline r) idx v = Ok u ->
    rbuilt MAXB V ov (mkR u (weight_function r))
| r_write_weight V ov r idx c w : rbuilt MAXB V ov r -> SetControlPoint (weight_function r) idx c = Ok w ->
    rbuilt MAXB V ov (mkR (weighted_spline r) w)
| r_assign V ov r c ws : rbuilt MAXB V ov r -> length c = length (control_points (weighted_spline r)) ->
    length ws = length (control_points (weight_function r)) ->
    rbuilt MAXB V ov (mkR (with_cps (weighted_spline r) c) (with_cps (weight_function r) ws))
| r_elevate V ov r k r' : rbuilt MAXB V ov r -> R_OrderElevate r k = Ok r' -> rbuilt MAXB V ov r'
| r_split V ov r plane k l r' : rbuilt MAXB V ov r -> R_SplitAtPosition r plane k = Ok l -> In r' l -> rbuilt MAXB V ov r'
| r_splits V ov r planes k l r' : rbuilt MAXB V ov r -> R_SplitAtPositions r planes k = Ok l -> In r' l -> rbuilt MAXB V ov r'
| r_derivative V ov fuel r orders r' : rbuilt MAXB V ov r -> R_DerivativeWRT MAXB fuel r orders = Ok r' -> rbuilt MAXB V ov r'
| r_scale_assign V ov r c r' : rbuilt MAXB V ov r -> R_scale_assign r c = Ok r' -> rbuilt MAXB V ov r'
| r_scale V ov r c r' : rbuilt MAXB V ov r -> R_scale r c = Ok r' -> rbuilt MAXB V ov r'
| r_shift_assign V ov r p r' : rbuilt MAXB V ov r -> R_shift_assign r p = Ok r' -> rbuilt MAXB V ov r'
| r_shift V ov r p r' : rbuilt MAXB V ov r -> R_shift r p = Ok r' -> rbuilt MAXB V ov r'
| r_unshift_assign V ov r p r' : rbuilt MAXB V ov r -> R_unshift_assign r p = Ok r' -> rbuilt MAXB V ov r'
| r_unshift V ov r p r' : rbuilt MAXB V ov r -> R_unshift r p = Ok r' -> rbuilt MAXB V ov r'
| r_neg V ov r r' : rbuilt MAXB V ov r -> R_neg r = Ok r' -> rbuilt MAXB V ov r'
| r_add V ov fuel r t r' : rbuilt MAXB V ov r -> rbuilt MAXB V ov t -> R_add MAXB fuel r t = Ok r' -> rbuilt MAXB V ov r'
| r_add_assign V ov fuel r t r' : rbuilt MAXB V ov r -> rbuilt MAXB V ov t -> R_add_assign MAXB fuel r t = Ok r' ->
    rbuilt MAXB V ov r'
| r_sub V ov fuel r t r' : rbuilt MAXB V ov r -> rbuilt MAXB V ov t -> R_sub MAXB fuel r t = Ok r' -> rbuilt MAXB V ov r'
| r_sub_assign V ov fuel r t r' : rbuilt MAXB V ov r -> rbuilt MAXB V ov t -> R_sub_assign MAXB fuel r t = Ok r' ->
    rbuilt MAXB V ov r'
| r_mul V1 V2 V3 (ov1 : VOps T V1) (ov2 : VOps T V2) (ov3 : VOps T V3) pmul (r : rspline T V1) (t : rspline T V2) r' :
    rbuilt MAXB V1 ov1 r -> rbuilt MAXB V2 ov2 t -> R_mul MAXB pmul r t = Ok r' -> rbuilt MAXB V3 ov3 r'
| r_compose_pr V ov fuel d s t r' : built MAXB V ov s -> rbuilt MAXB (point T d) (VOps_point T d) t ->
    Compose_PR MAXB fuel s t = Ok r' -> rbuilt MAXB V ov r'
| r_compose_rp V ov d s t r' : rbuilt MAXB V ov s -> built MAXB (point T d) (VOps_point T d) t ->
    Compose_RP MAXB s t = Ok r' -> rbuilt MAXB V ov r'
| r_compose_rr V ov fuel d s t r' : rbuilt MAXB V ov s -> rbuilt MAXB (point T d) (VOps_point T d) t ->
    Compose_RR MAXB fuel s t = Ok r' -> rbuilt MAXB V ov r'
| r_sensitivity_pr V (ov : VOps T V) fuel d s t l r' : built MAXB V ov s -> rbuilt MAXB (point T d) (VOps_point T d) t ->
    ComposeSensitivity_PR MAXB fuel s t = Ok l -> In r' l -> rbuilt MAXB T (VOps_scalar T) r'
| r_sensitivity_rp V (ov : VOps T V) d s t l r' : rbuilt MAXB V ov s -> built MAXB (point T d) (VOps_point T d) t ->
    ComposeSensitivity_RP MAXB s t = Ok l -> In r' l -> rbuilt MAXB T (VOps_scalar T) r'
| r_sensitivity_rr V (ov : VOps T V) fuel d s t l r' : rbuilt MAXB V ov s -> rbuilt MAXB (point T d) (VOps_point T d) t ->
    ComposeSensitivity_RR MAXB fuel s t = Ok l -> In r' l -> rbuilt MAXB T (VOps_scalar T) r'.
