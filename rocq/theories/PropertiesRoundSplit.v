(** Property C116: rounding errors of the subdivision at several planes. *)
From Coq Require Import Arith Lia List Bool ZArith Reals Lra.
From Verif Require Import Prelude Scalar Spec SpecSpline SpecRational Coord ModelBasis ModelSpline ModelPoint ModelRational
  ModelRound ModelRoundMul ModelRoundRat ModelRoundSplit SpecRound SpecRoundMul SpecRoundRat SpecRoundSplit ProofRound ProofEval ProofRational
  ClaimsU ClaimsRoundRat ClaimsRoundSplit PropertiesU PropertiesRoundRat.
Import ListNotations.
Local Open Scope R_scope.

(** C116: SplitAtPosition(planes) in rounded arithmetic. *)
Theorem C116_splits : forall p rnd d (s : spline (point R d)) planes k, (0 < p)%nat -> nearest p rnd -> wf s ->
  (k < length (degrees s))%nat -> planes_inside p planes ->
  exists parts cuts, SplitAtPositions_rnd rnd s planes k = Ok parts /\ length parts = S (length planes) /\ cuts_near p planes cuts /\
    forall i, (i <= length planes)%nat -> wf (nth i parts s) /\ degrees (nth i parts s) = degrees s /\
      forall c B, (c < d)%nat -> coord_bound s c B ->
      forall xs, length xs = length (degrees s) -> in_unit_box xs ->
        Rabs (coord d (value_at (nth i parts s) xs) c - coord d (value_at s (in_part cuts k i xs)) c) <=
          gamma p (part_roundings (nth k (degrees s) 0%nat) (length planes) i) * B.
Proof. exact c116_splits. Qed.
Print Assumptions C116_splits.
Theorem C116_splits_scalar : forall p rnd (s : spline R) planes k, (0 < p)%nat -> nearest p rnd -> wf s ->
  (k < length (degrees s))%nat -> planes_inside p planes ->
  exists parts cuts, SplitAtPositions_rnd_s rnd s planes k = Ok parts /\ length parts = S (length planes) /\ cuts_near p planes cuts /\
    forall i, (i <= length planes)%nat -> wf (nth i parts s) /\ degrees (nth i parts s) = degrees s /\
      forall B, coeff_bound s B ->
      forall xs, length xs = length (degrees s) -> in_unit_box xs ->
        Rabs (value_at (nth i parts s) xs - value_at s (in_part cuts k i xs)) <=
          gamma p (part_roundings (nth k (degrees s) 0%nat) (length planes) i) * B.
Proof. exact c116_splits_scalar. Qed.
Print Assumptions C116_splits_scalar.
Theorem C116_planes : forall p rnd d (s : spline (point R d)) planes k, (0 < p)%nat -> nearest p rnd -> wf s ->
  (k < length (degrees s))%nat -> planes_inside p planes ->
  exists parts, SplitAtPositions_rnd rnd s planes k = Ok parts /\ length parts = S (length planes) /\
    forall i c B xs, (i <= length planes)%nat -> (c < d)%nat -> coord_bound s c B -> length xs = length (degrees s) -> in_unit_box xs ->
      Rabs (coord d (value_at (nth i parts s) xs) c - coord d (value_at s (in_part planes k i xs)) c) <=
        (gamma p (part_roundings (nth k (degrees s) 0%nat) (length planes) i) + 2 * INR (nth k (degrees s) 0%nat) * gamma p 4) * B.
Proof. exact c116_planes. Qed.
Print Assumptions C116_planes.
Theorem C116_planes_scalar : forall p rnd (s : spline R) planes k, (0 < p)%nat -> nearest p rnd -> wf s ->
  (k < length (degrees s))%nat -> planes_inside p planes ->
  exists parts, SplitAtPositions_rnd_s rnd s planes k = Ok parts /\ length parts = S (length planes) /\
    forall i B xs, (i <= length planes)%nat -> coeff_bound s B -> length xs = length (degrees s) -> in_unit_box xs ->
      Rabs (value_at (nth i parts s) xs - value_at s (in_part planes k i xs)) <=
        (gamma p (part_roundings (nth k (degrees s) 0%nat) (length planes) i) + 2 * INR (nth k (degrees s) 0%nat) * gamma p 4) * B.
Proof. exact c116_planes_scalar. Qed.
Print Assumptions C116_planes_scalar.
Theorem C116_rational : forall p rnd d (r : rspline R (point R d)) planes k, (0 < p)%nat -> nearest p rnd -> rwf r ->
  (k < length (rdegrees r))%nat -> planes_inside p planes -> positive_weights r ->
  exists parts cuts, R_SplitAtPositions_rnd rnd r planes k = Ok parts /\ length parts = S (length planes) /\ cuts_near p planes cuts /\
    forall i, (i <= length planes)%nat -> rwf (nth i parts r) /\ rdegrees (nth i parts r) = rdegrees r /\
      let g := gamma p (part_roundings (nth k (rdegrees r) 0%nat) (length planes) i) in
      (g < 1 -> positive_weights (nth i parts r) /\
       forall c B, (c < d)%nat -> rat_bound r c B -> rat_bound (nth i parts r) c (quotient_growth g B) /\
       forall xs, length xs = length (rdegrees r) -> in_unit_box xs ->
         Rabs (coord d (rvalue (nth i parts r) xs) c - coord d (rvalue r (in_part cuts k i xs)) c) <= quotient_error g B).
Proof. exact c116_rational. Qed.
Print Assumptions C116_rational.
Theorem C116_rational_scalar : forall p rnd (r : rspline R R) planes k, (0 < p)%nat -> nearest p rnd -> rwf r ->
  (k < length (rdegrees r))%nat -> planes_inside p planes -> positive_weights r ->
  exists parts cuts, R_SplitAtPositions_rnd_s rnd r planes k = Ok parts /\ length parts = S (length planes) /\ cuts_near p planes cuts /\
    forall i, (i <= length planes)%nat -> rwf (nth i parts r) /\ rdegrees (nth i parts r) = rdegrees r /\
      let g := gamma p (part_roundings (nth k (rdegrees r) 0%nat) (length planes) i) in
      (g < 1 -> positive_weights (nth i parts r) /\
       forall B, rat_bound_s r B -> rat_bound_s (nth i parts r) (quotient_growth g B) /\
       forall xs, length xs = length (rdegrees r) -> in_unit_box xs ->
         Rabs (rvalue (nth i parts r) xs - rvalue r (in_part cuts k i xs)) <= quotient_error g B).
Proof. exact c116_rational_scalar. Qed.
Print Assumptions C116_rational_scalar.
Lemma quarters_inside : planes_inside 53 [1 / 4; 3 / 4].
Proof.
  assert (0 < / 2 ^ 53 <= / 2 ^ 5).
  { split; [apply Rinv_0_lt_compat, pow_lt; lra|]. apply Rinv_le_contravar; [apply pow_lt; lra|]. apply Rle_pow; [lra|lia]. }
  intros i Hi. cbn [length] in Hi. destruct i as [|[|i]]; [| |lia]; cbn [nth length]; split; intros; lra || lia.
Qed.
(** A parabola and the quarter circle cut at 1/4 and 3/4 in double precision; the middle of the second part. *)
Example C116_case :
  let s : spline R := mkSpline [2%nat] 3 [1%nat] [1; 3; -5] in
  wf s /\ value_at s [1 / 2] = 1 / 2 /\
  (exists a b c, SplitAtPositions_rnd_s (round_to 53) s [1 / 4; 3 / 4] 0 = Ok [a; b; c] /\
    Rabs (value_at b [1 / 2] - 1 / 2) <= 280 / 2 ^ 53) /\
  exists a b c cut, R_SplitAtPositions_rnd (round_to 53) arc [1 / 4; 3 / 4] 0 = Ok [a; b; c] /\ positive_weights b /\
    Rabs (cut - 3 / 4) <= 4 / 2 ^ 53 /\
    Rabs (coord 2 (rvalue b [1]) 0 - coord 2 (rvalue arc [cut]) 0) <= 72 / 2 ^ 53.
Proof.
  intros s. assert (HR : nearest 53 (round_to 53)) by (apply nearest_round_to; lia).
  assert (Hw : wf s) by (repeat split; discriminate).
  assert (G4 : 0 <= gamma 53 4 <= 2 * INR 4 * / 2 ^ 53) by (apply C71_gamma; simpl; lra).
  assert (G12 : 0 <= gamma 53 12 <= 2 * INR 12 * / 2 ^ 53) by (apply C71_gamma; simpl; lra). simpl INR in G4, G12.
  split; [exact Hw|]. split; [cbn; change R1 with 1; change R0 with 0; field|]. split.
  - destruct (C116_planes_scalar 53 (round_to 53) s [1 / 4; 3 / 4] 0) as (parts & E & L & K); auto using quarters_inside; try lia; try (cbn; lia).
    destruct parts as [|a [|b [|c [|e parts]]]]; try discriminate L. exists a, b, c. split; [exact E|].
    assert (HB : coeff_bound s 5).
    { intros i Hi. change (n_coeffs (degrees s)) with 3%nat in Hi. destruct i as [|[|[|i]]]; [| | |lia]; cbn; apply Rabs_le; lra. }
    specialize (K 1%nat 5 [1 / 2] ltac:(cbn; lia) HB eq_refl half_box). cbn [nth] in K.
    change (gamma 53 (part_roundings (nth 0 (degrees s) 0%nat) (length [1 / 4; 3 / 4]) 1)) with (gamma 53 12) in K.
    change (nth 0 (degrees s) 0%nat) with 2%nat in K. simpl INR in K.
    replace (value_at s (in_part [1 / 4; 3 / 4] 0 1 [1 / 2])) with (1 / 2) in K by (cbn; change R1 with 1; change R0 with 0; field).
    eapply Rle_trans; [exact K|]. lra.
  - destruct (C116_rational 53 (round_to 53) 2 arc [1 / 4; 3 / 4] 0) as (parts & cuts & E & L & (LC & HC) & K); auto using arc_wf, arc_weights, quarters_inside; try lia; try (cbn; lia).
    destruct parts as [|a [|b [|c [|e parts]]]]; try discriminate L. exists a, b, c, (nth 1 cuts 0). split; [exact E|].
    destruct (K 1%nat ltac:(cbn; lia)) as (_ & _ & K1). cbn [nth] in K1.
    change (part_roundings (nth 0 (rdegrees arc) 0%nat) (length [1 / 4; 3 / 4]) 1) with 12%nat in K1. cbv zeta in K1.
    destruct K1 as (P & K1); [lra|]. split; [exact P|].
    destruct (HC 1%nat ltac:(cbn; lia)) as (_ & C1 & _). cbn [nth] in C1. split; [eapply Rle_trans; [exact C1|]; lra|].
    destruct (K1 0%nat 1 ltac:(lia) (arc_bound 0 ltac:(lia))) as (_ & V). specialize (V [1] eq_refl ltac:(constructor; [lra|constructor])).
    assert (EX : in_part cuts 0 1 [1] = [nth 1 cuts 0]).
    { destruct cuts as [|x [|y [|z cuts]]]; try discriminate LC. unfold in_part, cut_from, cut_to. cbn. f_equal. ring. }
    rewrite EX in V. eapply Rle_trans; [exact V|]. apply small_error; lra.
Qed.

(** Planes strictly inside (0,1), increasing and representable are not enough: with the two ties of
    the statement rounded as IEEE 754 does by default, the second relative position rounds to 1 and
    the subdivision throws. *)
Theorem C116_spurious : forall p rnd d (s : spline (point R d)) k, (2 <= p)%nat -> nearest p rnd -> wf s -> (k < length (degrees s))%nat ->
  let u := / 2 ^ p in
  rnd (1 - 3 / 2 * u) = 1 - 2 * u -> rnd (1 - 5 / 2 * u) = 1 - 2 * u ->
  representable p (3 / 2 * u) /\ representable p (1 - u) /\ 0 < 3 / 2 * u < 1 - u /\ 1 - u < 1 /\
  SplitAtPositions_rnd rnd s [3 / 2 * u; 1 - u] k = Throw.
Proof. exact c116_spurious. Qed.
Print Assumptions C116_spurious.
(** Such a rounding to nearest exists in double precision, and the same call in exact arithmetic returns three parts. *)
Example C116_spurious_case :
  let s : spline (point R 1) := mkSpline [1%nat] 2 [1%nat] [(0, tt); (1, tt)] in
  let u := / 2 ^ 53 in
  exists rnd, nearest 53 rnd /\ SplitAtPositions_rnd rnd s [3 / 2 * u; 1 - u] 0 = Throw /\
    exists a b c, SplitAtPositions s [3 / 2 * u; 1 - u] 0 = Ok [a; b; c].
Proof.
  intros s u. assert (Hw : wf s) by (repeat split; discriminate). exists (even_here 53). split; [apply even_here_nearest; lia|].
  assert (U : 0 < u <= / 2 ^ 3).
  { split; [apply Rinv_0_lt_compat, pow_lt; lra|]. apply Rinv_le_contravar; [apply pow_lt; lra|]. apply Rle_pow; [lra|lia]. }
  simpl pow in U. split.
  - refine (proj2 (proj2 (proj2 (proj2 (C116_spurious 53 (even_here 53) 1 s 0 _ _ _ _ _ _))))); auto; try lia; try (cbn; lia).
    + apply even_here_nearest. lia.
    + unfold even_here. destruct (Req_EM_T _ _) as [|N]; [reflexivity|]. exfalso. apply N. reflexivity.
    + unfold even_here. destruct (Req_EM_T _ _) as [|N]; [reflexivity|]. destruct (Req_EM_T _ _) as [|N2]; [reflexivity|]. exfalso. apply N2. reflexivity.
  - destruct (ClaimsD.Positions_ok s [3 / 2 * u; 1 - u] 0 Hw ltac:(cbn; lia)) as (parts & E & L & _).
    { intros i Hi. cbn [length app] in Hi. apply ProofRoundSplit.slt_R. change (@s0 R SOps_R) with 0. change (@s1 R SOps_R) with 1.
      destruct i as [|[|[|i]]]; [| | |lia]; cbn [nth app]; lra. }
    destruct parts as [|a [|b [|c [|e parts]]]]; try discriminate L. exists a, b, c. exact E.
Qed.
