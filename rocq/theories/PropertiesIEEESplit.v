(** Property C117: subdivision at several planes with bounded exponents. *)
From Coq Require Import Arith Lia List Bool ZArith Reals Lra.
From Verif Require Import Prelude Scalar Spec SpecSpline Coord ModelBasis ModelSpline ModelRound SpecRound
  ModelIEEE SpecIEEE SpecRoundSplit SpecIEEESplit ModelIEEESplit ProofIEEE ClaimsIEEE ClaimsIEEESplit PropertiesU PropertiesIEEE PropertiesRoundSplit.
Import ListNotations.
Local Open Scope R_scope.

(** C117: SplitAtPosition(planes) when results can overflow and underflow. *)
Theorem C117_splits : forall F rnd d (s : spline (point R d)) planes k, reasonable F -> nearest_on_grid F rnd ->
  wf s -> (k < length (degrees s))%nat -> machine_points F s -> machine_planes F planes ->
  exists parts cuts, SplitAtPositions_ieee F rnd (fin_spline s) (map Fin planes) k = Ok (map fin_spline parts) /\
    length parts = S (length planes) /\ machine_cuts_near F planes cuts /\
    forall i, (i <= length planes)%nat -> wf (nth i parts s) /\ degrees (nth i parts s) = degrees s /\ machine_points F (nth i parts s) /\
      forall c B, (c < d)%nat -> coord_bound s c B -> forall xs, length xs = length (degrees s) -> in_unit_box xs ->
        Rabs (coord d (value_at (nth i parts s) xs) c - coord d (value_at s (in_part cuts k i xs)) c) <=
          part_error F (nth k (degrees s) 0%nat) (length planes) i B.
Proof. exact c117_splits. Qed.
Print Assumptions C117_splits.
Theorem C117_splits_scalar : forall F rnd (s : spline R) planes k, reasonable F -> nearest_on_grid F rnd ->
  wf s -> (k < length (degrees s))%nat -> machine_coeffs F s -> machine_planes F planes ->
  exists parts cuts, SplitAtPositions_ieee_s F rnd (fin_spline_s s) (map Fin planes) k = Ok (map fin_spline_s parts) /\
    length parts = S (length planes) /\ machine_cuts_near F planes cuts /\
    forall i, (i <= length planes)%nat -> wf (nth i parts s) /\ degrees (nth i parts s) = degrees s /\ machine_coeffs F (nth i parts s) /\
      forall B, coeff_bound s B -> forall xs, length xs = length (degrees s) -> in_unit_box xs ->
        Rabs (value_at (nth i parts s) xs - value_at s (in_part cuts k i xs)) <=
          part_error F (nth k (degrees s) 0%nat) (length planes) i B.
Proof. exact c117_splits_scalar. Qed.
Print Assumptions C117_splits_scalar.
Theorem C117_planes : forall F rnd d (s : spline (point R d)) planes k, reasonable F -> nearest_on_grid F rnd ->
  wf s -> (k < length (degrees s))%nat -> machine_points F s -> machine_planes F planes ->
  exists parts, SplitAtPositions_ieee F rnd (fin_spline s) (map Fin planes) k = Ok (map fin_spline parts) /\ length parts = S (length planes) /\
    forall i c B xs, (i <= length planes)%nat -> (c < d)%nat -> coord_bound s c B -> length xs = length (degrees s) -> in_unit_box xs ->
      Rabs (coord d (value_at (nth i parts s) xs) c - coord d (value_at s (in_part planes k i xs)) c) <=
        part_error F (nth k (degrees s) 0%nat) (length planes) i B +
        2 * INR (nth k (degrees s) 0%nat) * B * (gamma (prec F) 4 + INR (length planes) * tiny F).
Proof. exact c117_planes. Qed.
Print Assumptions C117_planes.
Theorem C117_planes_scalar : forall F rnd (s : spline R) planes k, reasonable F -> nearest_on_grid F rnd ->
  wf s -> (k < length (degrees s))%nat -> machine_coeffs F s -> machine_planes F planes ->
  exists parts, SplitAtPositions_ieee_s F rnd (fin_spline_s s) (map Fin planes) k = Ok (map fin_spline_s parts) /\ length parts = S (length planes) /\
    forall i B xs, (i <= length planes)%nat -> coeff_bound s B -> length xs = length (degrees s) -> in_unit_box xs ->
      Rabs (value_at (nth i parts s) xs - value_at s (in_part planes k i xs)) <=
        part_error F (nth k (degrees s) 0%nat) (length planes) i B +
        2 * INR (nth k (degrees s) 0%nat) * B * (gamma (prec F) 4 + INR (length planes) * tiny F).
Proof. exact c117_planes_scalar. Qed.
Print Assumptions C117_planes_scalar.
Lemma quarters_machine : machine_planes binary64 [1 / 4; 3 / 4].
Proof.
  split; [|exact quarters_inside]. constructor; [|constructor; [|constructor]].
  - exists 1%Z, (-2)%Z. split; [reflexivity|]. split; [simpl; lia|simpl; lra].
  - exists 3%Z, (-2)%Z. split; [reflexivity|]. split; [simpl; lia|simpl; lra].
Qed.
(** Control points as large as doubles can be, cut at 1/4 and 3/4: no part overflows. The middle of the second part. *)
Example C117_case :
  let M := omega binary64 in
  let s : spline R := mkSpline [2%nat] 3 [1%nat] [0; M; -M] in
  reasonable binary64 /\ wf s /\ machine_coeffs binary64 s /\ coeff_bound s M /\ value_at s [1 / 2] = M / 4 /\
  forall rnd, nearest_on_grid binary64 rnd -> exists a b c,
    SplitAtPositions_ieee_s binary64 rnd (fin_spline_s s) [Fin (1 / 4); Fin (3 / 4)] 0 = Ok [fin_spline_s a; fin_spline_s b; fin_spline_s c] /\
    Rabs (value_at b [1 / 2] - M / 4) <= gamma 53 12 * M + underflow binary64 4 + 4 * M * (gamma 53 4 + 2 * tiny binary64).
Proof.
  intros M s. assert (HF : reasonable binary64) by apply C89_formats.
  assert (PM : 0 < M) by (apply omega_pos; auto).
  assert (Hs : wf s) by (repeat split; discriminate).
  assert (Z : machine binary64 0) by (split; [apply grid_0|rewrite Rabs_R0; fold M; lra]).
  assert (Ms : machine_coeffs binary64 s).
  { constructor; [exact Z|]. constructor; [split; [apply grid_omega; auto|rewrite Rabs_right; fold M; lra]|]. constructor; [|constructor].
    split; [apply grid_opp, grid_omega; auto|rewrite Rabs_Ropp, Rabs_right; fold M; lra]. }
  assert (HB : coeff_bound s M).
  { intros i Hi. change (n_coeffs (degrees s)) with 3%nat in Hi. destruct i as [|[|[|i]]]; [| | |lia]; cbn [nth control_points s];
      [rewrite Rabs_R0; lra|rewrite Rabs_right; lra|rewrite Rabs_Ropp, Rabs_right; lra]. }
  assert (HV : value_at s [1 / 2] = M / 4) by (unfold s; clear; generalize M; intros m; cbn; change R1 with 1; change R0 with 0; field).
  do 5 (split; [assumption|]). intros rnd HR.
  destruct (C117_planes_scalar binary64 rnd s [1 / 4; 3 / 4] 0 HF HR Hs ltac:(cbn; lia) Ms quarters_machine) as (parts & E & L & K).
  destruct parts as [|a [|b [|c [|e parts]]]]; try discriminate L. exists a, b, c. split; [exact E|].
  specialize (K 1%nat M [1 / 2] ltac:(cbn; lia) HB eq_refl ltac:(constructor; [lra|constructor])). cbn [nth] in K.
  assert (EX : in_part [1 / 4; 3 / 4] 0 1 [1 / 2] = [1 / 2]) by (unfold in_part, cut_from, cut_to; cbn; f_equal; field).
  rewrite EX, HV in K. change (nth 0 (degrees s) 0%nat) with 2%nat in K. change (length [1 / 4; 3 / 4]) with 2%nat in K.
  unfold part_error in K. change (part_roundings 2 2 1) with 12%nat in K. change (2 * Nat.min 2 2)%nat with 4%nat in K.
  change (prec binary64) with 53%nat in K. change (INR 2) with (1 + 1) in K. lra.
Qed.
