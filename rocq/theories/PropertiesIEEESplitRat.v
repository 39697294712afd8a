(** Property C119: subdivision of rational splines at several planes with bounded exponents. *)
From Coq Require Import Arith Lia List Bool ZArith Reals Lra.
From Verif Require Import Prelude Scalar Spec SpecSpline SpecRational Coord ModelBasis ModelSpline ModelRational ModelRound SpecRound
  ModelIEEE ModelIEEERat SpecIEEE SpecRoundSplit SpecIEEESplit ModelIEEESplitRat ProofIEEE ProofIEEEEval ProofIEEESplit ClaimsIEEE ClaimsIEEESplitRat PropertiesU PropertiesIEEE PropertiesRoundSplit PropertiesIEEESplit.
Import ListNotations.
Local Open Scope R_scope.

(** C119: SplitAtPosition(planes) of rational splines when results can overflow and underflow. *)
Theorem C119_rational : forall F rnd d (r : rspline R (point R d)) planes k, reasonable F -> nearest_on_grid F rnd ->
  rwf r -> (k < length (rdegrees r))%nat -> machine_points F (weighted_spline r) -> machine_coeffs F (weight_function r) -> machine_planes F planes ->
  exists parts cuts, R_SplitAtPositions_ieee F rnd (fin_rspline r) (map Fin planes) k = Ok (map fin_rspline parts) /\
    length parts = S (length planes) /\ machine_cuts_near F planes cuts /\
    forall i, (i <= length planes)%nat ->
      rwf (nth i parts r) /\ rdegrees (nth i parts r) = rdegrees r /\
      machine_points F (weighted_spline (nth i parts r)) /\ machine_coeffs F (weight_function (nth i parts r)) /\
      forall Bw xs, coeff_bound (weight_function r) Bw -> length xs = length (rdegrees r) -> in_unit_box xs ->
        let w := value_at (weight_function (nth i parts r)) xs in
        let W := value_at (weight_function r) (in_part cuts k i xs) in
        let ew := part_error F (nth k (rdegrees r) 0%nat) (length planes) i Bw in
        Rabs (w - W) <= ew /\
        forall c B, (c < d)%nat -> coord_bound (weighted_spline r) c B ->
          let eu := part_error F (nth k (rdegrees r) 0%nat) (length planes) i B in
          Rabs (coord d (value_at (weighted_spline (nth i parts r)) xs) c - coord d (value_at (weighted_spline r) (in_part cuts k i xs)) c) <= eu /\
          (ew < W -> 0 < w /\
            Rabs (coord d (rvalue (nth i parts r) xs) c - coord d (rvalue r (in_part cuts k i xs)) c) <=
              (eu + Rabs (coord d (rvalue r (in_part cuts k i xs)) c) * ew) / (W - ew)).
Proof. exact c119_rational. Qed.
Print Assumptions C119_rational.
Theorem C119_rational_scalar : forall F rnd (r : rspline R R) planes k, reasonable F -> nearest_on_grid F rnd ->
  rwf r -> (k < length (rdegrees r))%nat -> machine_coeffs F (weighted_spline r) -> machine_coeffs F (weight_function r) -> machine_planes F planes ->
  exists parts cuts, R_SplitAtPositions_ieee_s F rnd (fin_rspline_s r) (map Fin planes) k = Ok (map fin_rspline_s parts) /\
    length parts = S (length planes) /\ machine_cuts_near F planes cuts /\
    forall i, (i <= length planes)%nat ->
      rwf (nth i parts r) /\ rdegrees (nth i parts r) = rdegrees r /\
      machine_coeffs F (weighted_spline (nth i parts r)) /\ machine_coeffs F (weight_function (nth i parts r)) /\
      forall Bw xs, coeff_bound (weight_function r) Bw -> length xs = length (rdegrees r) -> in_unit_box xs ->
        let w := value_at (weight_function (nth i parts r)) xs in
        let W := value_at (weight_function r) (in_part cuts k i xs) in
        let ew := part_error F (nth k (rdegrees r) 0%nat) (length planes) i Bw in
        Rabs (w - W) <= ew /\
        forall B, coeff_bound (weighted_spline r) B ->
          let eu := part_error F (nth k (rdegrees r) 0%nat) (length planes) i B in
          Rabs (value_at (weighted_spline (nth i parts r)) xs - value_at (weighted_spline r) (in_part cuts k i xs)) <= eu /\
          (ew < W -> 0 < w /\
            Rabs (rvalue (nth i parts r) xs - rvalue r (in_part cuts k i xs)) <=
              (eu + Rabs (rvalue r (in_part cuts k i xs)) * ew) / (W - ew)).
Proof. exact c119_rational_scalar. Qed.
Print Assumptions C119_rational_scalar.
(** Numerator 2t(1-t) and weight 1 - t + t^2 in doubles, cut at 1/4 and 3/4: the middle of the second part. *)
Example C119_case :
  let r : rspline R R := mkR (mkSpline [2%nat] 3 [1%nat] [0; 1; 0]) (mkSpline [2%nat] 3 [1%nat] [1; 1 / 2; 1]) in
  rwf r /\ machine_coeffs binary64 (weighted_spline r) /\ machine_coeffs binary64 (weight_function r) /\ rvalue r [1 / 2] = 2 / 3 /\
  forall rnd, nearest_on_grid binary64 rnd -> exists a b c t,
    R_SplitAtPositions_ieee_s binary64 rnd (fin_rspline_s r) [Fin (1 / 4); Fin (3 / 4)] 0 = Ok [fin_rspline_s a; fin_rspline_s b; fin_rspline_s c] /\
    Rabs (t - 1 / 2) <= 1 / 10 ^ 14 /\ 0 < value_at (weight_function b) [1 / 2] /\
    Rabs (rvalue b [1 / 2] - rvalue r [t]) <= 1 / 10 ^ 14.
Proof.
  intros r. assert (HF : reasonable binary64) by apply C89_formats.
  assert (Hr : rwf r) by (repeat split; discriminate).
  assert (O1 : 1 <= omega binary64) by (apply omega_1; auto).
  assert (Z : machine binary64 0) by (split; [apply grid_0|rewrite Rabs_R0; lra]).
  assert (I1 : machine binary64 1).
  { split; [exists 1%Z, 0%Z; split; [simpl; lia|split; [simpl; lia|simpl; lra]]|rewrite Rabs_right; lra]. }
  assert (I2 : machine binary64 (1 / 2)).
  { split; [exists 1%Z, (-1)%Z; split; [reflexivity|split; [simpl; lia|simpl; lra]]|rewrite Rabs_right; lra]. }
  assert (Mu : machine_coeffs binary64 (weighted_spline r)) by (repeat (constructor; [assumption|]); constructor).
  assert (Mw : machine_coeffs binary64 (weight_function r)) by (repeat (constructor; [assumption|]); constructor).
  assert (Vu : forall t, value_at (weighted_spline r) [t] = 2 * (t * (1 - t))) by (intros t; unfold r; cbn; change R1 with 1; change R0 with 0; field).
  assert (Vw : forall t, value_at (weight_function r) [t] = 1 - t * (1 - t)) by (intros t; unfold r; cbn; change R1 with 1; change R0 with 0; field).
  assert (Vr : forall t, rvalue r [t] = 1 / (1 - t * (1 - t)) * (2 * (t * (1 - t)))) by (intros t; unfold rvalue; rewrite Vu, Vw; reflexivity).
  do 3 (split; [assumption|]). split; [rewrite Vr; field|]. intros rnd HR.
  destruct (C119_rational_scalar binary64 rnd r [1 / 4; 3 / 4] 0 HF HR Hr ltac:(cbn; lia) Mu Mw quarters_machine) as (parts & cuts & E & L & HC & K).
  destruct parts as [|a [|b [|c [|e parts]]]]; try discriminate L.
  destruct HC as (LC & HC). destruct cuts as [|c0 [|c1 [|c2 cuts]]]; try discriminate LC.
  destruct (HC 0%nat ltac:(cbn; lia)) as (_ & H0 & _). destruct (HC 1%nat ltac:(cbn; lia)) as (_ & H1 & _). cbn [nth] in H0, H1.
  destruct (K 1%nat ltac:(cbn; lia)) as (_ & _ & _ & _ & K1). cbn [nth] in K1.
  assert (HBw : coeff_bound (weight_function r) 1).
  { intros i Hi. change (n_coeffs (degrees (weight_function r))) with 3%nat in Hi. destruct i as [|[|[|i]]]; [| | |lia]; cbn [nth control_points weight_function r]; rewrite Rabs_right; lra. }
  assert (HBu : coeff_bound (weighted_spline r) 1).
  { intros i Hi. change (n_coeffs (degrees (weighted_spline r))) with 3%nat in Hi. destruct i as [|[|[|i]]]; [| | |lia]; cbn [nth control_points weighted_spline r]; rewrite Rabs_right; lra. }
  destruct (K1 1 [1 / 2] HBw eq_refl ltac:(constructor; [lra|constructor])) as (_ & K2). clear K K1. destruct (K2 1 HBu) as (_ & K3). clear K2.
  set (t := c0 + (c1 - c0) * (1 / 2)) in *.
  change (in_part [c0; c1] 0 1 [1 / 2]) with [t] in K3.
  change (nth 0 (rdegrees r) 0%nat) with 2%nat in K3. change (length [1 / 4; 3 / 4]) with 2%nat in K3.
  assert (TS : tiny binary64 <= (/ 9007199254740992) ^ 2).
  { replace 9007199254740992 with (2 ^ 53) by (simpl; lra). exact (tiny_small binary64 HF). }
  pose proof (tiny_pos binary64) as TP. 
  assert (G4 : gamma (prec binary64) 4 <= 5 / 9007199254740992).
  { unfold gamma. change (prec binary64) with 53%nat. replace (2 ^ 53) with 9007199254740992 by (simpl; lra). cbn [pow]. lra. }
  assert (PE : part_error binary64 2 2 1 1 <= 13 / 9007199254740992).
  { unfold part_error, gamma, underflow. change (part_roundings 2 2 1) with 12%nat. change (2 * Nat.min 2 2)%nat with 4%nat. change (3 * 4)%nat with 12%nat.
    change (prec binary64) with 53%nat. replace (2 ^ 53) with 9007199254740992 by (simpl; lra). replace (INR 4) with 4 by (simpl; lra).
    assert (P12 : 1 <= (1 + / 9007199254740992) ^ 12 <= 1 + (12 + / 10) / 9007199254740992) by (cbn [pow]; split; lra).
    set (g := (1 + / 9007199254740992) ^ 12) in *.
    assert (4 * tiny binary64 * g <= 4 * tiny binary64 * 2) by (apply Rmult_le_compat_l; lra). cbn [pow] in TS. lra. }
  assert (PE0 : 0 <= part_error binary64 2 2 1 1).
  { unfold part_error. pose proof (underflow_pos binary64 (2 * Nat.min 2 2)) as UP. assert (0 <= gamma (prec binary64) (part_roundings 2 2 1)); [|lra].
    unfold gamma. change (prec binary64) with 53%nat. replace (2 ^ 53) with 9007199254740992 by (simpl; lra). change (part_roundings 2 2 1) with 12%nat. cbn [pow]. lra. }
  set (e := part_error binary64 2 2 1 1) in *.
  assert (Q : t * (1 - t) <= 1 / 4) by (pose proof (Rle_0_sqr (t - 1 / 2)) as S; unfold Rsqr in S; lra).
  assert (W : 3 / 4 <= value_at (weight_function r) [t]) by (rewrite Vw; lra).
  destruct (K3 ltac:(lra)) as (PW & B). clear K3.
  assert (T : Rabs (t - 1 / 2) <= 1 / 10 ^ 14).
  { cbn [pow] in TS |- *. assert (A0 : c0 = 1 / 4).
    { assert (X : Rabs (c0 - 1 / 4) <= 0) by (change (INR 0) with 0 in H0; lra). pose proof (Rabs_pos (c0 - 1 / 4)) as Y.
      destruct (Req_dec (c0 - 1 / 4) 0) as [Z0|Z0]; [lra|]. pose proof (Rabs_pos_lt _ Z0). lra. }
    unfold t. rewrite A0. change (INR 1) with 1 in H1.
    assert (H2 : Rabs (c1 - 3 / 4) <= 1 / 2 * (5 / 9007199254740992) + tiny binary64) by lra.
    replace (1 / 4 + (c1 - 1 / 4) * (1 / 2) - 1 / 2) with (1 / 2 * (c1 - 3 / 4)) by field. rewrite Rabs_mult, (Rabs_right (1 / 2)) by lra. lra. }
  exists a, b, c, t. split; [exact E|]. split; [exact T|]. split; [exact PW|]. eapply Rle_trans; [exact B|].
  assert (V2 : Rabs (rvalue r [t]) <= 2).
  { rewrite Vr. set (y := t * (1 - t)) in *. assert (P : 0 < 1 - y) by lra.
    replace (1 / (1 - y) * (2 * y)) with (2 * / (1 - y) - 2) by (field; lra).
    assert (I : / (1 - y) <= / (3 / 4)) by (apply Rinv_le_contravar; lra). replace (/ (3 / 4)) with (4 / 3) in I by field.
    pose proof (Rinv_0_lt_compat _ P). unfold Rabs. destruct (Rcase_abs _); lra. }
  set (w := value_at (weight_function r) [t]) in *.
  assert (A : e + Rabs (rvalue r [t]) * e <= 3 * e) by (pose proof (Rmult_le_compat_r e _ _ PE0 V2); lra).
  apply Rle_trans with ((3 * e) / (w - e)); [apply Rmult_le_compat_r; [left; apply Rinv_0_lt_compat; lra|exact A]|].
  apply Rmult_le_reg_r with (w - e); [lra|]. unfold Rdiv at 1. rewrite Rmult_assoc, Rinv_l, Rmult_1_r by lra.
  apply Rle_trans with (1 / 10 ^ 14 * (1 / 2)); [cbn [pow]; lra|]. apply Rmult_le_compat_l; [cbn [pow]; lra|lra].
Qed.
