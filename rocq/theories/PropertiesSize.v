(** Property C103: numbers of control points and indices in 64 bits. *)
From Coq Require Import Arith Lia List ZArith NArith Bool QArith Qcanon.
From Verif Require Import Prelude Scalar Spec SpecSpline ModelBasis ModelSpline ModelSize ClaimsSize.
Import ListNotations.
Local Open Scope nat_scope.

(** C103: what the constructors accept and build, exactly. *)
Theorem C103_points : forall (V : Type) (deg : list nat) (pts : list V) (s : spline V),
  Spline_deg_points_64 deg pts = Ok s <->
  deg <> [] /\ Z.of_nat (length pts) = (Z.of_nat (n_coeffs deg) mod 2 ^ 64)%Z /\
  degrees s = deg /\ control_points s = pts /\ number_of_control_points s = length pts /\
  length (index_offsets s) = length deg /\
  forall k, k < length deg -> Z.of_nat (nth k (index_offsets s) 0) = (Z.of_nat (n_coeffs (firstn k deg)) mod 2 ^ 64)%Z.
Proof. exact c103_points. Qed.
Print Assumptions C103_points.
Theorem C103_wf : forall (V : Type) (deg : list nat) (pts : list V) (s : spline V),
  Spline_deg_points_64 deg pts = Ok s -> (wf s <-> (Z.of_nat (n_coeffs deg) < 2 ^ 64)%Z).
Proof. exact c103_wf. Qed.
Print Assumptions C103_wf.
(** Missing from the full property: degrees that require 2^64 control points or more ([C103_construct_refuted]). *)
Theorem C103_construct_partial : forall (T V : Type) (o : SOps T) (ov : VOps T V) (limit : nat) (deg : list nat),
  deg <> [] -> (Z.of_nat (n_coeffs deg) < 2 ^ 64)%Z ->
  (forall pts : list V, (length pts = n_coeffs deg -> exists s, Spline_deg_points_64 deg pts = Ok s /\ wf s /\ degrees s = deg /\ control_points s = pts) /\
     (length pts <> n_coeffs deg -> Spline_deg_points_64 deg pts = AssertFail)) /\
  (n_coeffs deg <= limit ->
     (exists s : spline V, Spline_deg_64 limit deg = Ok s /\ wf s /\ degrees s = deg /\ control_points s = repeat v0 (n_coeffs deg)) /\
     forall s : spline V, exists r, UpdateDegrees_64 limit s deg = Ok r /\ wf r /\ degrees r = deg /\
       forall i, i < n_coeffs deg -> nth i (control_points r) v0 = nth i (control_points s) v0) /\
  (limit < n_coeffs deg -> Spline_deg_64 limit deg = Throw (A := spline V) /\ forall s : spline V, UpdateDegrees_64 limit s deg = Throw).
Proof. exact c103_construct_partial. Qed.
Print Assumptions C103_construct_partial.
Theorem C103_construct_refuted : forall V : Type,
  (exists deg, length deg = 1 /\ Spline_deg_points_64 deg ([] : list V) <> AssertFail /\ n_coeffs deg <> 0 /\
     exists s : spline V, Spline_deg_points_64 deg [] = Ok s /\ ~ wf s /\ ControlPoint_64 s [0] = UB) /\
  (exists deg, length deg = 2 /\
     exists s : spline V, Spline_deg_points_64 deg [] = Ok s /\ ~ wf s /\ ControlPoint_64 s [0; 0] = UB) /\
  (forall a b c d : V, exists deg, length deg = 2 /\ nth 1 deg 0 = 1 /\
     exists s : spline V, Spline_deg_points_64 deg [a; b; c; d] = Ok s /\ ~ wf s /\ ControlPoint_64 s [0; 1] = UB).
Proof. exact c103_construct_refuted. Qed.
Print Assumptions C103_construct_refuted.
Theorem C103_index : forall (V : Type) (s : spline V), wf s -> (Z.of_nat (n_coeffs (degrees s)) < 2 ^ 64)%Z ->
  (forall i, i < n_coeffs (degrees s) -> exists idx, LocalToGlobalIndex_64 s i = Ok idx /\ valid_index (degrees s) idx /\ GlobalToLocalIndex_64 s idx = Ok i) /\
  (forall idx, valid_index (degrees s) idx -> exists i x, GlobalToLocalIndex_64 s idx = Ok i /\ i < n_coeffs (degrees s) /\
     LocalToGlobalIndex_64 s i = Ok idx /\ ControlPoint_64 s idx = Ok x /\ nth_error (control_points s) i = Some x).
Proof. exact c103_index. Qed.
Print Assumptions C103_index.
(** Missing from the full property: products with 2^64 control points or more ([C103_product_refuted]) and
    degrees that do not fit [int] ([C103_product_zero_refuted]). *)
Theorem C103_product_partial : forall (T V1 V2 V3 : Type) (o : SOps T) (o3 : VOps T V3) (pmul : V1 -> V2 -> V3) (limit MAXB : nat) (P : spline V1) (Q : spline V2) r,
  MAXB <= 68 -> wf P -> wf Q -> length (degrees Q) = length (degrees P) ->
  (Z.of_nat (n_coeffs (map2 Nat.add (degrees P) (degrees Q))) < 2 ^ 64)%Z -> n_coeffs (map2 Nat.add (degrees P) (degrees Q)) <= limit ->
  spline_mul MAXB pmul P Q = Ok r -> spline_mul_64 limit MAXB pmul P Q = Ok r.
Proof. exact c103_product_partial. Qed.
Print Assumptions C103_product_partial.
(** Missing from the full property: the same. *)
Theorem C103_product_scalar_partial : forall (T : Type) (o : SOps T) (F : SField T) (limit MAXB : nat) (P Q : spline T),
  MAXB <= 68 -> wf P -> wf Q -> length (degrees Q) = length (degrees P) ->
  Forall (fun p => p < MAXB) (map2 Nat.add (degrees P) (degrees Q)) ->
  (Z.of_nat (number_of_control_points P) * Z.of_nat (number_of_control_points Q) < 2 ^ 64)%Z ->
  number_of_control_points P * number_of_control_points Q <= limit ->
  exists r : spline T, spline_mul_64 limit MAXB (fun a b => smul a b) P Q = Ok r /\ wf r /\
    forall xs : list T, length xs = length (degrees P) ->
      exists a b, Evaluate P xs = Ok a /\ Evaluate Q xs = Ok b /\ Evaluate r xs = Ok (smul a b).
Proof. exact c103_product_scalar_partial. Qed.
Print Assumptions C103_product_scalar_partial.
Theorem C103_product_refuted : forall (T : Type) (o : SOps T) (F : SField T) (limit MAXB : nat), exists P Q : spline T,
  wf P /\ wf Q /\ length (degrees Q) = length (degrees P) /\ Forall (fun p => p <= 1) (map2 Nat.add (degrees P) (degrees Q)) /\
  number_of_control_points P = number_of_control_points Q /\ Z.of_nat (number_of_control_points P) = (2 ^ 32)%Z /\
  exists r : spline T, spline_mul_64 limit MAXB (fun a b => smul a b) P Q = Ok r /\ control_points r = [] /\ number_of_control_points r = 0 /\ ~ wf r.
Proof. exact c103_product_refuted. Qed.
Print Assumptions C103_product_refuted.
(** A curve of a degree that only fits [unsigned int], times a constant: the loops that run over [int]s do
    nothing, no assertion fails, and the product is zero everywhere. *)
Theorem C103_product_zero_refuted : forall (T V : Type) (o : SOps T) (ov : VOps T V) (F : SField T) (M : VMod T V) (limit MAXB m : nat)
  (P : spline V) (Q : spline T),
  (2 ^ 31 <= Z.of_nat m < 2 ^ 32)%Z -> m + 1 <= limit -> wf P -> wf Q -> degrees P = [m] -> degrees Q = [0] ->
  exists r : spline V, spline_mul_64 limit MAXB (fun p c => vscale c p) P Q = Ok r /\ wf r /\ degrees r = [m] /\
    control_points r = repeat v0 (m + 1) /\
    exists p q, control_points P = p :: tl (control_points P) /\ control_points Q = [q] /\
      Evaluate P [s0] = Ok p /\ Evaluate Q [s0] = Ok q /\ Evaluate r [s0] = Ok v0.
Proof. exact c103_product_zero_refuted. Qed.
Print Assumptions C103_product_zero_refuted.
Example C103_case :
  (exists s : spline nat, Spline_deg_points_64 [2; 1] [10; 11; 12; 13; 14; 15] = Ok s /\ wf s /\
     LocalToGlobalIndex_64 s 4 = Ok [1; 1] /\ GlobalToLocalIndex_64 s [1; 1] = Ok 4 /\ ControlPoint_64 s [1; 1] = Ok 14) /\
  (Z.of_nat (n_coeffs [2%nat; 1%nat]) < 2 ^ 64)%Z /\
  Spline_deg_points_64 [2; 1] [10; 11; 12; 13; 14] = AssertFail /\
  (let P : spline Qc := mkSpline [1] 2 [1] [Q2Qc 1; Q2Qc 3] in
   let Q : spline Qc := mkSpline [1] 2 [1] [Q2Qc 2; Q2Qc 5] in
   wf P /\ wf Q /\ (Z.of_nat (number_of_control_points P) * Z.of_nat (number_of_control_points Q) < 2 ^ 64)%Z /\
   exists r, spline_mul_64 100 30 (fun a b => smul a b) P Q = Ok r /\ map this (control_points r) = [2#1; 11#2; 15#1]%Q /\
     spline_mul_64 2 30 (fun a b => smul a b) P Q = Throw).
Proof.
  split; [eexists; split; [vm_compute; reflexivity|repeat split; discriminate]|].
  split; [reflexivity|]. split; [reflexivity|]. cbv zeta.
  split; [repeat split; discriminate|]. split; [repeat split; discriminate|]. split; [reflexivity|].
  eexists. split; [vm_compute; reflexivity|]. split; vm_compute; reflexivity.
Qed.
