(** Property C104: the unit cube in rounded arithmetic. *)
From Coq Require Import Arith Lia List ZArith NArith Bool Reals Lra.
From Verif Require Import Prelude Scalar Spec SpecSpline Coord ModelBasis ModelSpline ModelRational SpecRational ModelRound ModelRoundRat SpecRound
  ProofIndex ProofRound ModelUnit SpecUnit ClaimsUnit.
Import ListNotations.
Local Open Scope R_scope.

(** C104: the check, and FitIntoUnitCube. *)
Theorem C104_fits : forall rnd d (s : spline (point R d)), wf s ->
  exists b, FitsIntoUnitCube_rnd rnd s = Ok b /\ (b = true <-> in_cube s).
Proof. exact c104_fits. Qed.
Print Assumptions C104_fits.
Theorem C104_fits_scalar : forall rnd (s : spline R), wf s ->
  exists b, FitsIntoUnitCube_rnd_s rnd s = Ok b /\ (b = true <-> in_interval s).
Proof. exact c104_fits_scalar. Qed.
Print Assumptions C104_fits_scalar.
Theorem C104_fit : forall p rnd d (s : spline (point R d)), (0 < p)%nat -> nearest p rnd -> wf s -> numbers p s -> varies s ->
  exists r, FitIntoUnitCube_rnd rnd s = Ok r /\ wf r /\ degrees r = degrees s /\ in_cube r /\ FitsIntoUnitCube_rnd rnd r = Ok true /\
    forall k lo hi, (k < d)%nat -> range (fun i => coord d (nth i (control_points s) v0) k) (n_coeffs (degrees s)) lo hi ->
    lo < hi /\ forall i, (i < n_coeffs (degrees s))%nat ->
      let c := coord d (nth i (control_points s) v0) k in let c' := coord d (nth i (control_points r) v0) k in
      (c = lo -> c' = 0) /\
      Rabs (c' - (c - lo) / (hi - lo)) <= ((1 + / 2 ^ p) ^ 3 / (1 - / 2 ^ p) - 1) * ((c - lo) / (hi - lo)).
Proof. exact c104_fit. Qed.
Print Assumptions C104_fit.
Theorem C104_fit_scalar : forall p rnd (s : spline R), (0 < p)%nat -> nearest p rnd -> wf s ->
  (exists i j, (i < n_coeffs (degrees s))%nat /\ (j < n_coeffs (degrees s))%nat /\ nth i (control_points s) 0 <> nth j (control_points s) 0) ->
  exists r, FitIntoUnitCube_rnd_s rnd s = Ok r /\ wf r /\ degrees r = degrees s /\ in_interval r /\ FitsIntoUnitCube_rnd_s rnd r = Ok true /\
    forall lo hi, range (fun i => nth i (control_points s) 0) (n_coeffs (degrees s)) lo hi ->
    lo < hi /\ forall i, (i < n_coeffs (degrees s))%nat ->
      let c := nth i (control_points s) 0 in let c' := nth i (control_points r) 0 in
      (c = lo -> c' = 0) /\
      Rabs (c' - (c - lo) / (hi - lo)) <= ((1 + / 2 ^ p) ^ 3 / (1 - / 2 ^ p) - 1) * ((c - lo) / (hi - lo)).
Proof. exact c104_fit_scalar. Qed.
Print Assumptions C104_fit_scalar.
Theorem C104_fit_flat : forall p rnd d (s : spline (point R d)) k, (0 < p)%nat -> nearest p rnd -> wf s -> (k < d)%nat ->
  (forall i j, (i < n_coeffs (degrees s))%nat -> (j < n_coeffs (degrees s))%nat ->
     coord d (nth i (control_points s) v0) k = coord d (nth j (control_points s) v0) k) ->
  FitIntoUnitCube_rnd rnd s = NonFinite.
Proof. exact c104_fit_flat. Qed.
Print Assumptions C104_fit_flat.
Theorem C104_fit_max_below : exists s : spline (point R 1), wf s /\ numbers 53 s /\ varies s /\
  forall rnd, nearest 53 rnd -> exists r, FitIntoUnitCube_rnd rnd s = Ok r /\
    forall i, (i < n_coeffs (degrees r))%nat -> coord 1 (nth i (control_points r) v0) 0 < 1.
Proof. exact c104_fit_max_below. Qed.
Print Assumptions C104_fit_max_below.
(** C104: what keeps a spline in the cube. *)
Theorem C104_evaluate : forall p rnd d (s : spline (point R d)) xs, (0 < p)%nat -> nearest p rnd -> wf s -> in_cube s ->
  length xs = length (degrees s) -> Forall (parameter p) xs ->
  exists v, Evaluate_rnd rnd s xs = Ok v /\ forall k, (k < d)%nat -> 0 <= coord d v k <= 1.
Proof. exact c104_evaluate. Qed.
Print Assumptions C104_evaluate.
Theorem C104_evaluate_scalar : forall p rnd (s : spline R) xs, (0 < p)%nat -> nearest p rnd -> wf s -> in_interval s ->
  length xs = length (degrees s) -> Forall (parameter p) xs ->
  exists v, Evaluate_rnd_s rnd s xs = Ok v /\ 0 <= v <= 1.
Proof. exact c104_evaluate_scalar. Qed.
Print Assumptions C104_evaluate_scalar.
Theorem C104_elevate : forall p rnd d (s : spline (point R d)) k, (0 < p)%nat -> nearest p rnd -> wf s -> in_cube s -> (k < length (degrees s))%nat ->
  (Z.of_nat (n_coeffs (upd_list (degrees s) k (nth k (degrees s) 0%nat + 1)%nat)) < 2 ^ 31)%Z ->
  exists r, OrderElevate_rnd rnd s k = Ok r /\ wf r /\ degrees r = upd_list (degrees s) k (nth k (degrees s) 0 + 1)%nat /\
    in_cube r /\ FitsIntoUnitCube_rnd rnd r = Ok true.
Proof. exact c104_elevate. Qed.
Print Assumptions C104_elevate.
Theorem C104_elevate_scalar : forall p rnd (s : spline R) k, (0 < p)%nat -> nearest p rnd -> wf s -> in_interval s -> (k < length (degrees s))%nat ->
  (Z.of_nat (n_coeffs (upd_list (degrees s) k (nth k (degrees s) 0%nat + 1)%nat)) < 2 ^ 31)%Z ->
  exists r, OrderElevate_rnd_s rnd s k = Ok r /\ wf r /\ degrees r = upd_list (degrees s) k (nth k (degrees s) 0 + 1)%nat /\
    in_interval r /\ FitsIntoUnitCube_rnd_s rnd r = Ok true.
Proof. exact c104_elevate_scalar. Qed.
Print Assumptions C104_elevate_scalar.
Theorem C104_split : forall p rnd d (s : spline (point R d)) x k, (0 < p)%nat -> nearest p rnd -> wf s -> in_cube s -> (k < length (degrees s))%nat ->
  representable p x -> 0 < x < 1 ->
  exists l r, SplitAtPosition_rnd rnd s x k = Ok [l; r] /\ wf l /\ wf r /\ degrees l = degrees s /\ degrees r = degrees s /\
    in_cube l /\ in_cube r /\ FitsIntoUnitCube_rnd rnd l = Ok true /\ FitsIntoUnitCube_rnd rnd r = Ok true.
Proof. exact c104_split. Qed.
Print Assumptions C104_split.
Theorem C104_split_scalar : forall p rnd (s : spline R) x k, (0 < p)%nat -> nearest p rnd -> wf s -> in_interval s -> (k < length (degrees s))%nat ->
  representable p x -> 0 < x < 1 ->
  exists l r, SplitAtPosition_rnd_s rnd s x k = Ok [l; r] /\ wf l /\ wf r /\ degrees l = degrees s /\ degrees r = degrees s /\
    in_interval l /\ in_interval r /\ FitsIntoUnitCube_rnd_s rnd l = Ok true /\ FitsIntoUnitCube_rnd_s rnd r = Ok true.
Proof. exact c104_split_scalar. Qed.
Print Assumptions C104_split_scalar.
Theorem C104_splits : forall p rnd d (s : spline (point R d)) planes k parts, (0 < p)%nat -> nearest p rnd -> wf s -> in_cube s ->
  (k < length (degrees s))%nat -> Forall (representable p) planes -> SplitAtPositions_rnd rnd s planes k = Ok parts ->
  forall q, In q parts -> in_cube q /\ FitsIntoUnitCube_rnd rnd q = Ok true.
Proof. exact c104_splits. Qed.
Print Assumptions C104_splits.
(** C104: rational splines. *)
Theorem C104_rational_points : forall p rnd d deg (pts : list (point R d)) ws, (0 < p)%nat -> nearest p rnd ->
  deg <> [] -> length pts = n_coeffs deg -> length ws = n_coeffs deg ->
  (forall i k, (i < n_coeffs deg)%nat -> (k < d)%nat -> 0 <= coord d (nth i pts v0) k <= 1) ->
  Forall (fun w => representable p w /\ 0 < w) ws ->
  exists r, R_deg_points_rnd rnd deg pts ws = Ok r /\ rwf r /\ rdegrees r = deg /\ control_points (weight_function r) = ws /\
    (forall i k, (i < n_coeffs deg)%nat -> (k < d)%nat ->
       coord d (nth i (control_points (weighted_spline r)) v0) k = rnd (nth i ws 0 * coord d (nth i pts v0) k)) /\
    in_cube_weighted r /\ R_FitsIntoUnitCube_rnd rnd r = Ok true.
Proof. exact c104_rational_points. Qed.
Print Assumptions C104_rational_points.
Theorem C104_rational_points_scalar : forall p rnd deg (pts ws : list R), (0 < p)%nat -> nearest p rnd ->
  deg <> [] -> length pts = n_coeffs deg -> length ws = n_coeffs deg ->
  Forall (fun c => 0 <= c <= 1) pts -> Forall (fun w => representable p w /\ 0 < w) ws ->
  exists r, R_deg_points_rnd_s rnd deg pts ws = Ok r /\ rwf r /\ rdegrees r = deg /\ control_points (weight_function r) = ws /\
    (forall i, (i < n_coeffs deg)%nat -> nth i (control_points (weighted_spline r)) 0 = rnd (nth i ws 0 * nth i pts 0)) /\
    in_interval_weighted r /\ R_FitsIntoUnitCube_rnd_s rnd r = Ok true.
Proof. exact c104_rational_points_scalar. Qed.
Print Assumptions C104_rational_points_scalar.
Theorem C104_rational_check : forall rnd d (r : rspline R (point R d)), rwf r ->
  (forall i, (i < n_coeffs (rdegrees r))%nat -> nth i (control_points (weight_function r)) 0 <> 0) ->
  exists b, R_FitsIntoUnitCube_rnd rnd r = Ok b /\ (b = true <-> forall i k, (i < n_coeffs (rdegrees r))%nat -> (k < d)%nat ->
    0 <= rnd (rnd (1 / nth i (control_points (weight_function r)) 0) * coord d (nth i (control_points (weighted_spline r)) v0) k) <= 1).
Proof. exact c104_rational_check. Qed.
Print Assumptions C104_rational_check.
Theorem C104_rational_check_scalar : forall rnd (r : rspline R R), rwf r ->
  (forall i, (i < n_coeffs (rdegrees r))%nat -> nth i (control_points (weight_function r)) 0 <> 0) ->
  exists b, R_FitsIntoUnitCube_rnd_s rnd r = Ok b /\ (b = true <-> forall i, (i < n_coeffs (rdegrees r))%nat ->
    0 <= rnd (nth i (control_points (weighted_spline r)) 0 / nth i (control_points (weight_function r)) 0) <= 1).
Proof. exact c104_rational_check_scalar. Qed.
Print Assumptions C104_rational_check_scalar.
Theorem C104_rational_fits : forall p rnd d (r : rspline R (point R d)), (0 < p)%nat -> nearest p rnd -> rwf r -> in_cube_weighted r ->
  R_FitsIntoUnitCube_rnd rnd r = Ok true.
Proof. exact c104_rational_fits. Qed.
Print Assumptions C104_rational_fits.
Theorem C104_rational_fits_scalar : forall p rnd (r : rspline R R), (0 < p)%nat -> nearest p rnd -> rwf r -> in_interval_weighted r ->
  R_FitsIntoUnitCube_rnd_s rnd r = Ok true.
Proof. exact c104_rational_fits_scalar. Qed.
Print Assumptions C104_rational_fits_scalar.
Theorem C104_rational_evaluate : forall p rnd d (r : rspline R (point R d)) xs, (0 < p)%nat -> nearest p rnd -> rwf r -> in_cube_weighted r ->
  length xs = length (rdegrees r) -> in_unit_box xs ->
  exists v, R_Evaluate_rnd rnd r xs = Ok v /\ forall k, (k < d)%nat -> 0 <= coord d v k <= 1.
Proof. exact c104_rational_evaluate. Qed.
Print Assumptions C104_rational_evaluate.
Theorem C104_rational_evaluate_scalar : forall p rnd (r : rspline R R) xs, (0 < p)%nat -> nearest p rnd -> rwf r -> in_interval_weighted r ->
  length xs = length (rdegrees r) -> in_unit_box xs ->
  exists v, R_Evaluate_rnd_s rnd r xs = Ok v /\ 0 <= v <= 1.
Proof. exact c104_rational_evaluate_scalar. Qed.
Print Assumptions C104_rational_evaluate_scalar.
Theorem C104_rational_elevate : forall p rnd d (r : rspline R (point R d)) k, (0 < p)%nat -> nearest p rnd -> rwf r -> in_cube_weighted r ->
  (k < length (rdegrees r))%nat ->
  (Z.of_nat (n_coeffs (upd_list (rdegrees r) k (nth k (rdegrees r) 0%nat + 1)%nat)) < 2 ^ 31)%Z ->
  exists q, R_OrderElevate_rnd rnd r k = Ok q /\ rwf q /\ rdegrees q = upd_list (rdegrees r) k (nth k (rdegrees r) 0 + 1)%nat /\
    in_cube_weighted q /\ R_FitsIntoUnitCube_rnd rnd q = Ok true.
Proof. exact c104_rational_elevate. Qed.
Print Assumptions C104_rational_elevate.
Theorem C104_rational_elevate_scalar : forall p rnd (r : rspline R R) k, (0 < p)%nat -> nearest p rnd -> rwf r -> in_interval_weighted r ->
  (k < length (rdegrees r))%nat ->
  (Z.of_nat (n_coeffs (upd_list (rdegrees r) k (nth k (rdegrees r) 0%nat + 1)%nat)) < 2 ^ 31)%Z ->
  exists q, R_OrderElevate_rnd_s rnd r k = Ok q /\ rwf q /\ rdegrees q = upd_list (rdegrees r) k (nth k (rdegrees r) 0 + 1)%nat /\
    in_interval_weighted q /\ R_FitsIntoUnitCube_rnd_s rnd q = Ok true.
Proof. exact c104_rational_elevate_scalar. Qed.
Print Assumptions C104_rational_elevate_scalar.
Theorem C104_rational_split : forall p rnd d (r : rspline R (point R d)) x k, (0 < p)%nat -> nearest p rnd -> rwf r -> in_cube_weighted r ->
  (k < length (rdegrees r))%nat -> 0 < x < 1 ->
  exists a b, R_SplitAtPosition_rnd rnd r x k = Ok [a; b] /\ rwf a /\ rwf b /\ rdegrees a = rdegrees r /\ rdegrees b = rdegrees r /\
    in_cube_weighted a /\ in_cube_weighted b /\ R_FitsIntoUnitCube_rnd rnd a = Ok true /\ R_FitsIntoUnitCube_rnd rnd b = Ok true.
Proof. exact c104_rational_split. Qed.
Print Assumptions C104_rational_split.
Theorem C104_rational_split_scalar : forall p rnd (r : rspline R R) x k, (0 < p)%nat -> nearest p rnd -> rwf r -> in_interval_weighted r ->
  (k < length (rdegrees r))%nat -> 0 < x < 1 ->
  exists a b, R_SplitAtPosition_rnd_s rnd r x k = Ok [a; b] /\ rwf a /\ rwf b /\ rdegrees a = rdegrees r /\ rdegrees b = rdegrees r /\
    in_interval_weighted a /\ in_interval_weighted b /\ R_FitsIntoUnitCube_rnd_s rnd a = Ok true /\ R_FitsIntoUnitCube_rnd_s rnd b = Ok true.
Proof. exact c104_rational_split_scalar. Qed.
Print Assumptions C104_rational_split_scalar.
Example C104_case :
  let s : spline (point R 2) := mkSpline [2%nat] 3 [1%nat] [(-1, (2, tt)); (1, (7, tt)); (6, (5, tt))] in
  let pts : list (point R 1) := [(0, tt); (1, tt); (1 / 4, tt)] in
  nearest 53 (round_to 53) /\ wf s /\ numbers 53 s /\ varies s /\
  range (fun i => coord 2 (nth i (control_points s) v0) 0) 3 (-1) 6 /\
  (exists r, FitIntoUnitCube_rnd (round_to 53) s = Ok r /\ FitsIntoUnitCube_rnd (round_to 53) r = Ok true /\ in_cube r /\
    coord 2 (nth 0 (control_points r) v0) 0 = 0 /\ Rabs (coord 2 (nth 1 (control_points r) v0) 0 - 2 / 7) <= 2 / 2 ^ 53 /\
    FitsIntoUnitCube_rnd (round_to 53) s = Ok false /\
    Forall (parameter 53) [5 / 8] /\ exists v, Evaluate_rnd (round_to 53) r [5 / 8] = Ok v /\ 0 <= coord 2 v 1 <= 1) /\
  exists q, R_deg_points_rnd (round_to 53) [2%nat] pts [1; 3; 49] = Ok q /\ in_cube_weighted q /\
    R_FitsIntoUnitCube_rnd (round_to 53) q = Ok true.
Proof.
  cbv zeta. match goal with |- context [wf ?x] => set (s := x : spline (point R 2)) end.
  assert (HR : nearest 53 (round_to 53)) by (apply nearest_round_to; lia).
  assert (Hw : wf s) by (repeat split; discriminate).
  assert (RZ : forall z e, (Z.abs z < 2 ^ 53)%Z -> representable 53 (IZR z * powerRZ 2 e)) by (intros z e Hz; exists z, e; split; auto).
  assert (RI : forall z, (Z.abs z < 2 ^ 53)%Z -> representable 53 (IZR z)).
  { intros z Hz. replace (IZR z) with (IZR z * powerRZ 2 0) by (simpl; ring). auto. }
  assert (I3 : forall i, (i < 3)%nat -> (i = 0 \/ i = 1 \/ i = 2)%nat) by (intros; lia).
  assert (HN : numbers 53 s).
  { intros i k Hi Hk. assert (Hc : (k = 0 \/ k = 1)%nat) by lia.
    destruct (I3 i Hi) as [-> | [-> | ->]], Hc as [-> | ->]; unfold coord; cbn; apply RI; reflexivity. }
  assert (HV : varies s).
  { intros k Hk. assert (Hc : (k = 0 \/ k = 1)%nat) by lia. exists 0%nat, 1%nat. split; [cbn; lia|]. split; [cbn; lia|].
    destruct Hc as [-> | ->]; unfold coord; cbn; lra. }
  assert (HRa : range (fun i => coord 2 (nth i (control_points s) v0) 0) 3 (-1) 6).
  { split; [|split].
    - intros i Hi. destruct (I3 i Hi) as [-> | [-> | ->]]; unfold coord; cbn; lra.
    - exists 0%nat. split; [lia|reflexivity].
    - exists 2%nat. split; [lia|reflexivity]. }
  split; [auto|]. split; [auto|]. split; [auto|]. split; [auto|]. split; [auto|]. split.
  - destruct (C104_fit 53 (round_to 53) 2 s ltac:(lia) HR Hw HN HV) as (r & E & Wr & Dr & Cr & Fr & H).
    destruct (H 0%nat (-1) 6 ltac:(lia) HRa) as (_ & H').
    exists r. split; [exact E|]. split; [exact Fr|]. split; [exact Cr|].
    split; [apply (H' 0%nat); [cbn; lia|reflexivity]|]. split.
    + destruct (H' 1%nat ltac:(cbn; lia)) as (_ & B). change (coord 2 (nth 1 (control_points s) v0) 0) with 1 in B.
      replace ((1 - -1) / (6 - -1)) with (2 / 7) in B by field. eapply Rle_trans; [exact B|].
      set (u := / 2 ^ 53). assert (Hu : 0 < u <= / 1024).
      { unfold u. split; [apply Rinv_0_lt_compat, pow_lt; lra|]. apply Rinv_le_contravar; [lra|]. replace 1024 with (2 ^ 10) by (simpl; ring). apply Rle_pow; [lra|lia]. }
      unfold Rdiv. fold u. assert (HI : / (1 - u) <= 1 + 2 * u).
      { apply (Rmult_le_reg_r (1 - u)); [lra|]. rewrite Rinv_l by lra. nra. }
      assert (P3 : 0 <= (1 + u) ^ 3) by (apply pow_le; lra).
      assert (H1 : (1 + u) ^ 3 * / (1 - u) <= (1 + u) ^ 3 * (1 + 2 * u)) by (apply Rmult_le_compat_l; auto).
      assert (H2 : (1 + u) ^ 3 * (1 + 2 * u) <= 1 + 7 * u).
      { assert (0 <= u * u <= u * / 1024) by nra. simpl. nra. }
      lra.
    + split.
      { destruct (C104_fits (round_to 53) 2 s Hw) as (b & Eb & Hb). rewrite Eb. f_equal. destruct b; auto.
        pose proof (proj1 Hb eq_refl 0%nat 0%nat ltac:(cbn; lia) ltac:(lia)) as X. unfold coord in X. cbn in X. lra. }
      assert (HP : Forall (parameter 53) [5 / 8]).
      { constructor; [|constructor]. split; [|lra]. replace (5 / 8) with (IZR 5 * powerRZ 2 (-3)) by (simpl; field). apply RZ. reflexivity. }
      split; [exact HP|].
      destruct (C104_evaluate 53 (round_to 53) 2 r [5 / 8] ltac:(lia) HR Wr Cr ltac:(rewrite Dr; reflexivity) HP) as (v & Ev & Hv).
      exists v. split; [exact Ev|]. apply Hv. lia.
  - destruct (C104_rational_points 53 (round_to 53) 1 [2%nat] [(0, tt); (1, tt); (1 / 4, tt)] [1; 3; 49] ltac:(lia) HR ltac:(discriminate) eq_refl eq_refl)
      as (q & E & _ & _ & _ & _ & C & F).
    + intros i k Hi Hk. replace k with 0%nat by lia. destruct (I3 i Hi) as [-> | [-> | ->]]; unfold coord; cbn; lra.
    + repeat constructor; try lra; apply RI; reflexivity.
    + exists q. auto.
Qed.
