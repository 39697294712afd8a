(** Property C101: evaluation when the compiler contracts multiplications and additions. *)
From Coq Require Import Arith Lia List Bool ZArith Reals Lra.
From Verif Require Import Prelude Scalar Spec SpecSpline Coord ModelBasis ModelSpline ModelRational SpecRational
  ModelRound SpecRound ProofRound ClaimsU ModelFma ClaimsFma.
Import ListNotations.
Local Open Scope R_scope.

Theorem C101_evaluate : forall p rnd d (s : spline (point R d)) xs e, (0 < p)%nat -> nearest p rnd ->
  wf s -> length xs = length (degrees s) -> in_unit_box xs -> Evaluate_fma rnd s xs e -> forall k, (k < d)%nat ->
    Rabs (coord d e k - coord d (value_at s xs) k) <= gamma p (casteljau_roundings (degrees s)) * magnitude s xs k.
Proof. exact c101_evaluate. Qed.
Print Assumptions C101_evaluate.
Theorem C101_evaluate_scalar : forall p rnd (s : spline R) xs e, (0 < p)%nat -> nearest p rnd ->
  wf s -> length xs = length (degrees s) -> in_unit_box xs -> Evaluate_fma_s rnd s xs e ->
    Rabs (e - value_at s xs) <= gamma p (casteljau_roundings (degrees s)) * magnitude_s s xs.
Proof. exact c101_evaluate_scalar. Qed.
Print Assumptions C101_evaluate_scalar.
Theorem C101_forward : forall p rnd MAXB d (s : spline (point R d)) xs e, (0 < p)%nat -> nearest p rnd -> (MAXB <= 68)%nat ->
  wf s -> length xs = length (degrees s) -> Forall (fun q => (q < MAXB)%nat) (degrees s) -> in_unit_box xs ->
  ForwardEvaluate_fma rnd MAXB s xs e -> forall k, (k < d)%nat ->
    Rabs (coord d e k - coord d (value_at s xs) k) <= gamma p (forward_roundings (degrees s)) * magnitude s xs k.
Proof. exact c101_forward. Qed.
Print Assumptions C101_forward.
Theorem C101_forward_scalar : forall p rnd MAXB (s : spline R) xs e, (0 < p)%nat -> nearest p rnd -> (MAXB <= 68)%nat ->
  wf s -> length xs = length (degrees s) -> Forall (fun q => (q < MAXB)%nat) (degrees s) -> in_unit_box xs ->
  ForwardEvaluate_fma_s rnd MAXB s xs e ->
    Rabs (e - value_at s xs) <= gamma p (forward_roundings (degrees s)) * magnitude_s s xs.
Proof. exact c101_forward_scalar. Qed.
Print Assumptions C101_forward_scalar.
Theorem C101_rational : forall p rnd d (r : rspline R (point R d)) xs e, (0 < p)%nat -> nearest p rnd ->
  rwf r -> length xs = length (rdegrees r) -> in_unit_box xs ->
  Forall (fun w => 0 < w) (control_points (weight_function r)) -> R_Evaluate_fma rnd r xs e -> forall k, (k < d)%nat ->
    Rabs (coord d e k - coord d (rvalue r xs) k) <=
    ((1 + / 2 ^ p) ^ (casteljau_roundings (rdegrees r) + 2) / (1 - / 2 ^ p) ^ casteljau_roundings (rdegrees r) - 1) *
    (magnitude (weighted_spline r) xs k / value_at (weight_function r) xs).
Proof. exact c101_rational. Qed.
Print Assumptions C101_rational.
Theorem C101_corners : forall p rnd d (s : spline (point R d)) xs e, (0 < p)%nat -> nearest p rnd ->
  wf s -> length xs = length (degrees s) -> Forall (fun x => x = 0 \/ x = 1) xs ->
  Forall (fun c => forall k, (k < d)%nat -> representable p (coord d c k)) (control_points s) ->
  Evaluate_fma rnd s xs e -> e = value_at s xs.
Proof. exact c101_corners. Qed.
Print Assumptions C101_corners.
(** What the relation contains: the results without contraction, and all three results of a line. *)
Theorem C101_plain : forall rnd MAXB d (s : spline (point R d)) xs e,
  (Evaluate_rnd rnd s xs = Ok e -> Evaluate_fma rnd s xs e) /\
  (ForwardEvaluate_rnd rnd MAXB s xs = Ok e -> ForwardEvaluate_fma rnd MAXB s xs e).
Proof. exact c101_plain. Qed.
Print Assumptions C101_plain.
Theorem C101_plain_scalar : forall rnd MAXB (s : spline R) xs e,
  (Evaluate_rnd_s rnd s xs = Ok e -> Evaluate_fma_s rnd s xs e) /\
  (ForwardEvaluate_rnd_s rnd MAXB s xs = Ok e -> ForwardEvaluate_fma_s rnd MAXB s xs e).
Proof. exact c101_plain_scalar. Qed.
Print Assumptions C101_plain_scalar.
Theorem C101_rational_plain : forall rnd d (r : rspline R (point R d)) xs e,
  R_Evaluate_rnd rnd r xs = Ok e -> R_Evaluate_fma rnd r xs e.
Proof. exact c101_rational_plain. Qed.
Print Assumptions C101_rational_plain.
Theorem C101_contractions : forall rnd x y z v,
  let p := Mul (Num x) (Num y) in
  (means rnd (Add p (Num z)) v <-> v = rnd (rnd (x * y) + z) \/ v = rnd (x * y + z)) /\
  (means rnd (Add (Num z) p) v <-> v = rnd (z + rnd (x * y)) \/ v = rnd (z + x * y)) /\
  (means rnd (Sub p (Num z)) v <-> v = rnd (rnd (x * y) - z) \/ v = rnd (x * y - z)) /\
  (means rnd (Sub (Num z) p) v <-> v = rnd (z - rnd (x * y)) \/ v = rnd (z - x * y)) /\
  (means rnd (Add (Opp p) (Num z)) v <-> v = rnd (- rnd (x * y) + z) \/ v = rnd (- (x * y) + z)) /\
  (means rnd (Mul p (Num z)) v <-> v = rnd (rnd (x * y) * z)).
Proof. exact c101_contractions. Qed.
Print Assumptions C101_contractions.
Theorem C101_line : forall rnd c0 c1 x e,
  Evaluate_fma_s rnd (mkSpline [1%nat] 2 [1%nat] [c0; c1]) [x] e <->
  let a := rnd (1 - x) * c0 in let b := x * c1 in
  e = rnd (rnd a + rnd b) \/ e = rnd (a + rnd b) \/ e = rnd (rnd a + b).
Proof. exact c101_line. Qed.
Print Assumptions C101_line.
Theorem C101_differs : exists (s : spline R) x, wf s /\ degrees s = [1%nat] /\ in_unit_box [x] /\ representable 53 x /\
  Forall (representable 53) (control_points s) /\ value_at s [x] = 0 /\
  forall rnd, nearest 53 rnd -> Evaluate_rnd_s rnd s [x] = Ok 0 /\
    forall e, Evaluate_fma_s rnd s [x] e <-> e = 0 \/ e = / 8 \/ e = - / 8.
Proof. exact c101_differs. Qed.
Print Assumptions C101_differs.

(** The parabola of C71 in double precision: a result exists, and all results keep the bound. *)
Example C101_case :
  let s : spline (point R 2) := mkSpline [2%nat] 3 [1%nat] [(1, (0, tt)); (3, (4, tt)); (-5, (0, tt))] in
  wf s /\ in_unit_box [1 / 4] /\ nearest 53 (round_to 53) /\
  (exists e, Evaluate_fma (round_to 53) s [1 / 4] e) /\
  (exists e, ForwardEvaluate_fma (round_to 53) 30 s [1 / 4] e) /\
  (forall e, Evaluate_fma (round_to 53) s [1 / 4] e -> Rabs (coord 2 e 0 - 11 / 8) <= 24 / 2 ^ 53) /\
  (forall e, ForwardEvaluate_fma (round_to 53) 30 s [1 / 4] e -> Rabs (coord 2 e 0 - 11 / 8) <= 44 / 2 ^ 53) /\
  (forall e, Evaluate_fma (round_to 53) s [1] e -> e = (-5, (0, tt))).
Proof.
  intros s.
  assert (Hw : wf s) by (repeat split; discriminate).
  assert (HX : in_unit_box [1 / 4]) by (constructor; [lra|constructor]).
  assert (HR : nearest 53 (round_to 53)) by (apply nearest_round_to; lia).
  assert (HD : Forall (fun q => (q < 30)%nat) (degrees s)) by (repeat constructor; lia).
  assert (HV : value_at s [1 / 4] = (11 / 8, (3 / 2, tt))).
  { cbn. f_equal; [lra|]. f_equal. lra. }
  assert (HM : magnitude s [1 / 4] 0 = 2).
  { cbn. rewrite (Rabs_right 1), (Rabs_right 3), (Rabs_left (-5)) by lra. lra. }
  repeat (split; [assumption|]). split; [|split; [|split; [|split]]].
  - destruct (c71_evaluate 53 (round_to 53) 2 s [1 / 4]) as (e & E & _); auto; [lia|]. exists e. apply (proj1 (C101_plain (round_to 53) 30 2 s [1 / 4] e) E).
  - destruct (c72_forward 53 (round_to 53) 30 2 s [1 / 4]) as (e & E & _); auto; [lia|lia|]. exists e. apply (proj2 (C101_plain (round_to 53) 30 2 s [1 / 4] e) E).
  - intros e H. pose proof (C101_evaluate 53 (round_to 53) 2 s [1 / 4] e ltac:(lia) HR Hw eq_refl HX H 0%nat ltac:(lia)) as B.
    rewrite HV, HM in B. unfold coord in *. cbn [plist fst nth] in *.
    assert (Hg : gamma 53 (casteljau_roundings (degrees s)) <= 12 / 2 ^ 53).
    { unfold s. cbn [degrees casteljau_roundings]. replace (12 / 2 ^ 53) with (2 * INR (3 * list_sum [2%nat]) * / 2 ^ 53) by (simpl; lra).
      apply c71_gamma. simpl. lra. }
    lra.
  - intros e H. pose proof (C101_forward 53 (round_to 53) 30 2 s [1 / 4] e ltac:(lia) HR ltac:(lia) Hw eq_refl HD HX H 0%nat ltac:(lia)) as B.
    rewrite HV, HM in B. unfold coord in *. cbn [plist fst nth] in *.
    assert (Hg : gamma 53 (forward_roundings (degrees s)) <= 22 / 2 ^ 53).
    { change (forward_roundings (degrees s)) with 11%nat. replace (22 / 2 ^ 53) with (2 * INR 11 * / 2 ^ 53) by (simpl; lra).
      apply c71_gamma. simpl. lra. }
    lra.
  - intros e H. assert (V1 : value_at s [1] = (-5, (0, tt))).
    { cbn. f_equal; [lra|]. f_equal. lra. }
    rewrite <- V1. apply (C101_corners 53 (round_to 53) 2 s [1] e); auto; [lia|].
    assert (I : forall z : Z, (Z.abs z < 2 ^ 53)%Z -> representable 53 (IZR z)).
    { intros z Hz. exists z, 0%Z. split; [exact Hz|]. simpl. ring. }
    unfold s. cbn [control_points]. repeat constructor; intros [|[|k]] Hk; try lia; apply I; reflexivity.
Qed.
(** A rational segment with weights 1 and 3. *)
Example C101_rational_case :
  let r : rspline R (point R 1) := mkR (mkSpline [1%nat] 2 [1%nat] [(2, tt); (9, tt)]) (mkSpline [1%nat] 2 [1%nat] [1; 3]) in
  rwf r /\ Forall (fun w => 0 < w) (control_points (weight_function r)) /\ nearest 24 (round_to 24) /\
  rvalue r [1 / 2] = (11 / 4, tt) /\ magnitude (weighted_spline r) [1 / 2] 0 / value_at (weight_function r) [1 / 2] = 11 / 4 /\
  forall e, R_Evaluate_fma (round_to 24) r [1 / 2] e ->
    Rabs (coord 1 e 0 - 11 / 4) <= ((1 + / 2 ^ 24) ^ 5 / (1 - / 2 ^ 24) ^ 3 - 1) * (11 / 4).
Proof.
  intros r.
  assert (Hw : rwf r) by (repeat split; discriminate).
  assert (HP : Forall (fun w => 0 < w) (control_points (weight_function r))) by (repeat constructor; lra).
  assert (HR : nearest 24 (round_to 24)) by (apply nearest_round_to; lia).
  assert (HV : rvalue r [1 / 2] = (11 / 4, tt)).
  { cbn. f_equal. lra. }
  assert (HM : magnitude (weighted_spline r) [1 / 2] 0 / value_at (weight_function r) [1 / 2] = 11 / 4).
  { cbn. rewrite (Rabs_right 2), (Rabs_right 9) by lra. lra. }
  repeat (split; [assumption|]). intros e H.
  assert (HX : in_unit_box [1 / 2]) by (constructor; [lra|constructor]).
  pose proof (C101_rational 24 (round_to 24) 1 r [1 / 2] e ltac:(lia) HR Hw eq_refl HX HP H 0%nat ltac:(lia)) as B.
  rewrite HV, HM in B. exact B.
Qed.
