(** Properties C12, C24-C27: coordinates, bounding corners and the unit cube. *)
From Coq Require Import Arith Lia List ZArith NArith Bool QArith Qcanon.
From Verif Require Import Prelude Scalar Spec SpecSpline Coord ModelBasis ModelSpline Examples ClaimsC.
Import ListNotations.
Local Open Scope nat_scope.

(** C12: on the unit cube the value stays in the bounding box of the control points. *)
Theorem C12_bounding_box : forall (T : Type) (o : SOps T) (F : SField T) (O : SOrder T) (d : nat)
  (s : spline (point T d)) (xs : list T),
  wf s -> length xs = length (degrees s) -> Forall in_unit xs ->
  exists p lo hi, Evaluate s xs = Ok p /\ MinimumCorner s = Ok lo /\ MaximumCorner s = Ok hi /\
    forall k, k < d -> sle (coord d lo k) (coord d p k) /\ sle (coord d p k) (coord d hi k).
Proof. exact c12_bounding_box. Qed.
Print Assumptions C12_bounding_box.
Example C12_case : wf ex_p /\ Forall in_unit [Q2Qc (1 # 3); Q2Qc 1] /\
  MinimumCorner ex_p = Ok (Q2Qc 0, (Q2Qc 0, tt)) /\ MaximumCorner ex_p = Ok (Q2Qc 2, (Q2Qc (3 # 2), tt)).
Proof. case_. Qed.

(** C24: ExtractDimension. *)
Theorem C24_extract_dimension : forall (T : Type) (o : SOps T) (F : SField T) (d : nat)
  (s : spline (point T d)) (k : nat), wf s -> k < d ->
  exists r, ExtractDimension s k = Ok r /\ wf r /\ degrees r = degrees s /\
    forall xs : list T, length xs = length (degrees s) ->
      exists p, Evaluate s xs = Ok p /\ Evaluate r xs = Ok (coord d p k).
Proof. exact c24_extract_dimension. Qed.
Print Assumptions C24_extract_dimension.
Theorem C24_extract_dimension_range : forall (T : Type) (o : SOps T) (d : nat)
  (s : spline (point T d)) (k : nat), d <= k -> ExtractDimension s k = Throw.
Proof. exact c24_extract_dimension_range. Qed.
Print Assumptions C24_extract_dimension_range.
Example C24_case : wf ex_p /\ 1 < 2 /\
  (exists r, ExtractDimension ex_p 1 = Ok r /\ Evaluate r [Q2Qc (1 # 2); Q2Qc (1 # 3)] = Ok (Q2Qc (7 # 12))) /\
  ExtractDimension ex_p 2 = Throw.
Proof. split; [case_|]. split; [case_|]. split; [|reflexivity].
  eexists. split; [vm_compute; reflexivity|]. qc_eq. Qed.

(** C25: the corners are the tight bounds; FitsIntoUnitCube is exact. *)
Theorem C25_corners : forall (T : Type) (o : SOps T) (F : SField T) (O : SOrder T) (d : nat)
  (s : spline (point T d)), wf s ->
  exists lo hi, MinimumCorner s = Ok lo /\ MaximumCorner s = Ok hi /\
    forall k, k < d ->
      (forall p, In p (control_points s) ->
         sle (coord d lo k) (coord d p k) /\ sle (coord d p k) (coord d hi k)) /\
      (exists p, In p (control_points s) /\ coord d p k = coord d lo k) /\
      (exists p, In p (control_points s) /\ coord d p k = coord d hi k).
Proof. exact c25_corners. Qed.
Print Assumptions C25_corners.
Theorem C25_fits_exact : forall (T : Type) (o : SOps T) (F : SField T) (O : SOrder T) (d : nat)
  (s : spline (point T d)), wf s ->
  exists b, FitsIntoUnitCube s = Ok b /\
    (b = true <-> forall p k, In p (control_points s) -> k < d -> in_unit (coord d p k)).
Proof. exact c25_fits_exact. Qed.
Print Assumptions C25_fits_exact.
Theorem C25_empty : forall (T : Type) (o : SOps T) (d : nat) (s : spline (point T d)),
  number_of_control_points s = 0 ->
  MinimumCorner s = Throw /\ MaximumCorner s = Throw /\ FitsIntoUnitCube s = Throw /\ FitIntoUnitCube s = Throw.
Proof. exact c25_empty. Qed.
Print Assumptions C25_empty.
Example C25_case : wf ex_p /\ FitsIntoUnitCube ex_p = Ok false.
Proof. case_. Qed.

(** C26: FitIntoUnitCube. *)
Theorem C26_fit : forall (T : Type) (o : SOps T) (F : SField T) (O : SOrder T) (d : nat)
  (s : spline (point T d)), wf s ->
  (forall k, k < d -> exists p q, In p (control_points s) /\ In q (control_points s) /\ coord d p k <> coord d q k) ->
  exists r lo hi, FitIntoUnitCube s = Ok r /\ wf r /\ degrees r = degrees s /\
    FitsIntoUnitCube r = Ok true /\
    forall k, k < d ->
      slt (coord d lo k) (coord d hi k) /\
      (forall i, i < length (control_points s) ->
         coord d (nth i (control_points r) v0) k =
           sdiv (ssub (coord d (nth i (control_points s) v0) k) (coord d lo k))
                (ssub (coord d hi k) (coord d lo k)) /\
         in_unit (coord d (nth i (control_points r) v0) k)) /\
      (exists p, In p (control_points r) /\ coord d p k = s0) /\
      (exists p, In p (control_points r) /\ coord d p k = s1).
Proof. exact c26_fit. Qed.
Print Assumptions C26_fit.
Example C26_case : wf ex_p /\
  (forall k, k < 2 -> exists p q, In p (control_points ex_p) /\ In q (control_points ex_p) /\
     coord 2 p k <> coord 2 q k) /\
  exists r, FitIntoUnitCube ex_p = Ok r /\ FitsIntoUnitCube r = Ok true.
Proof.
  split; [case_|]. split.
  - intros [|[|k]] Hk; [| |lia];
      exists (nth 0 (control_points ex_p) v0), (nth 1 (control_points ex_p) v0);
      (split; [apply nth_In; simpl; lia|]); (split; [apply nth_In; simpl; lia|]); vm_compute; congruence.
  - eexists. split; vm_compute; reflexivity.
Qed.

(** C27: flat splines divide by zero. *)
Theorem C27_flat_refuted : exists s : spline (point Qc 2), wf s /\ FitIntoUnitCube s = NonFinite.
Proof. exact c27_flat_refuted. Qed.
Print Assumptions C27_flat_refuted.
Theorem C27_flat_always : forall (T : Type) (o : SOps T) (F : SField T) (O : SOrder T) (d : nat)
  (s : spline (point T d)) (k : nat), wf s -> k < d ->
  (forall p q, In p (control_points s) -> In q (control_points s) -> coord d p k = coord d q k) ->
  FitIntoUnitCube s = NonFinite.
Proof. exact c27_flat_always. Qed.
Print Assumptions C27_flat_always.
Example C27_case :
  let s : spline (point Qc 2) := mkSpline [1] 2 [1] [(Q2Qc 0, (Q2Qc 1, tt)); (Q2Qc 3, (Q2Qc 1, tt))] in
  wf s /\ 1 < 2 /\
  forall p q, In p (control_points s) -> In q (control_points s) -> coord 2 p 1 = coord 2 q 1.
Proof.
  split; [case_|]. split; [case_|]. intros p q Hp Hq.
  destruct Hp as [<-|[<-|[]]]; destruct Hq as [<-|[<-|[]]]; reflexivity.
Qed.
