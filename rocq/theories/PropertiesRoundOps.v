(** Properties C81-C84: rounding errors of elevation, sums, subdivision and derivatives; pieces share their faces. *)
From Coq Require Import Arith Lia List Bool ZArith Reals Lra.
From Verif Require Import Prelude Scalar Spec SpecSpline SpecSeam Coord ModelBasis ModelSpline
  ModelRound SpecRound ProofRound ProofEval ProofSplit ProofArith ClaimsU ClaimsRoundOps PropertiesU.
Import ListNotations.
Local Open Scope R_scope.

(** C81: degree elevation and sums in rounded arithmetic. *)
Theorem C81_elevate : forall p rnd d (s : spline (point R d)) k, (0 < p)%nat -> nearest p rnd ->
  wf s -> (k < length (degrees s))%nat ->
  (Z.of_nat (nth k (degrees s) 0%nat + 1) < 2 ^ Z.of_nat p)%Z ->
  (Z.of_nat (n_coeffs (upd_list (degrees s) k (S (nth k (degrees s) 0%nat)))) < 2 ^ 31)%Z ->
  exists e e0, OrderElevate_rnd rnd s k = Ok e /\ OrderElevate s k = Ok e0 /\ wf e /\
    degrees e = upd_list (degrees s) k (S (nth k (degrees s) 0%nat)) /\ degrees e0 = degrees e /\
    forall c B, (c < d)%nat -> coord_bound s c B ->
      (forall i, (i < n_coeffs (degrees e))%nat ->
        Rabs (coord d (nth i (control_points e) v0) c - coord d (nth i (control_points e0) v0) c) <= 3 * gamma p 5 * B) /\
      forall xs, length xs = length (degrees s) -> in_unit_box xs ->
        Rabs (coord d (value_at e xs) c - coord d (value_at s xs) c) <= 3 * gamma p 5 * B.
Proof. exact c81_elevate. Qed.
Print Assumptions C81_elevate.
Theorem C81_elevate_scalar : forall p rnd (s : spline R) k, (0 < p)%nat -> nearest p rnd ->
  wf s -> (k < length (degrees s))%nat ->
  (Z.of_nat (nth k (degrees s) 0%nat + 1) < 2 ^ Z.of_nat p)%Z ->
  (Z.of_nat (n_coeffs (upd_list (degrees s) k (S (nth k (degrees s) 0%nat)))) < 2 ^ 31)%Z ->
  forall B, coeff_bound s B ->
  exists e e0, OrderElevate_rnd_s rnd s k = Ok e /\ OrderElevate s k = Ok e0 /\ wf e /\
    degrees e = upd_list (degrees s) k (S (nth k (degrees s) 0%nat)) /\ degrees e0 = degrees e /\
    (forall i, (i < n_coeffs (degrees e))%nat ->
      Rabs (nth i (control_points e) 0 - nth i (control_points e0) 0) <= 3 * gamma p 5 * B) /\
    forall xs, length xs = length (degrees s) -> in_unit_box xs ->
      Rabs (value_at e xs - value_at s xs) <= 3 * gamma p 5 * B.
Proof. exact c81_elevate_scalar. Qed.
Print Assumptions C81_elevate_scalar.
Theorem C81_add : forall p rnd fuel d (s rhs : spline (point R d)), (0 < p)%nat -> nearest p rnd ->
  wf s -> wf rhs -> length (degrees rhs) = length (degrees s) ->
  (Z.of_nat (list_max (max_degs (degrees s) (degrees rhs))) < 2 ^ Z.of_nat p)%Z ->
  (Z.of_nat (n_coeffs (max_degs (degrees s) (degrees rhs))) < 2 ^ 31)%Z ->
  (list_max (max_degs (degrees s) (degrees rhs)) < fuel)%nat -> (2 <= fuel)%nat -> 
  exists r, spline_add_rnd rnd fuel s rhs = Ok r /\ wf r /\ degrees r = max_degs (degrees s) (degrees rhs) /\
    forall c B1 B2, (c < d)%nat -> coord_bound s c B1 -> coord_bound rhs c B2 ->
      forall xs, length xs = length (degrees s) -> in_unit_box xs ->
        Rabs (coord d (value_at r xs) c - (coord d (value_at s xs) c + coord d (value_at rhs xs) c)) <=
          sum_error p (elevations (degrees s) (degrees rhs)) (elevations (degrees rhs) (degrees s)) B1 B2.
Proof. exact c81_add. Qed.
Print Assumptions C81_add.
Theorem C81_add_scalar : forall p rnd fuel (s rhs : spline R), (0 < p)%nat -> nearest p rnd ->
  wf s -> wf rhs -> length (degrees rhs) = length (degrees s) ->
  (Z.of_nat (list_max (max_degs (degrees s) (degrees rhs))) < 2 ^ Z.of_nat p)%Z ->
  (Z.of_nat (n_coeffs (max_degs (degrees s) (degrees rhs))) < 2 ^ 31)%Z ->
  (list_max (max_degs (degrees s) (degrees rhs)) < fuel)%nat -> (2 <= fuel)%nat -> 
  forall B1 B2, coeff_bound s B1 -> coeff_bound rhs B2 ->
  exists r, spline_add_rnd_s rnd fuel s rhs = Ok r /\ wf r /\ degrees r = max_degs (degrees s) (degrees rhs) /\
    forall xs, length xs = length (degrees s) -> in_unit_box xs ->
      Rabs (value_at r xs - (value_at s xs + value_at rhs xs)) <=
        sum_error p (elevations (degrees s) (degrees rhs)) (elevations (degrees rhs) (degrees s)) B1 B2.
Proof. exact c81_add_scalar. Qed.
Print Assumptions C81_add_scalar.
Theorem C81_add_assign : forall p rnd fuel d (s rhs : spline (point R d)), (0 < p)%nat -> nearest p rnd ->
  wf s -> wf rhs -> length (degrees rhs) = length (degrees s) ->
  (Z.of_nat (list_max (max_degs (degrees s) (degrees rhs))) < 2 ^ Z.of_nat p)%Z ->
  (Z.of_nat (n_coeffs (max_degs (degrees s) (degrees rhs))) < 2 ^ 31)%Z ->
  (list_max (max_degs (degrees s) (degrees rhs)) < fuel)%nat -> 
  exists r, spline_add_assign_rnd rnd fuel s rhs = Ok r /\ wf r /\ degrees r = max_degs (degrees s) (degrees rhs) /\
    forall c B1 B2, (c < d)%nat -> coord_bound s c B1 -> coord_bound rhs c B2 ->
      forall xs, length xs = length (degrees s) -> in_unit_box xs ->
        Rabs (coord d (value_at r xs) c - (coord d (value_at s xs) c + coord d (value_at rhs xs) c)) <=
          sum_error p (elevations (degrees s) (degrees rhs)) (elevations (degrees rhs) (degrees s)) B1 B2.
Proof. exact c81_add_assign. Qed.
Print Assumptions C81_add_assign.
Theorem C81_add_assign_scalar : forall p rnd fuel (s rhs : spline R), (0 < p)%nat -> nearest p rnd ->
  wf s -> wf rhs -> length (degrees rhs) = length (degrees s) ->
  (Z.of_nat (list_max (max_degs (degrees s) (degrees rhs))) < 2 ^ Z.of_nat p)%Z ->
  (Z.of_nat (n_coeffs (max_degs (degrees s) (degrees rhs))) < 2 ^ 31)%Z ->
  (list_max (max_degs (degrees s) (degrees rhs)) < fuel)%nat -> 
  forall B1 B2, coeff_bound s B1 -> coeff_bound rhs B2 ->
  exists r, spline_add_assign_rnd_s rnd fuel s rhs = Ok r /\ wf r /\ degrees r = max_degs (degrees s) (degrees rhs) /\
    forall xs, length xs = length (degrees s) -> in_unit_box xs ->
      Rabs (value_at r xs - (value_at s xs + value_at rhs xs)) <=
        sum_error p (elevations (degrees s) (degrees rhs)) (elevations (degrees rhs) (degrees s)) B1 B2.
Proof. exact c81_add_assign_scalar. Qed.
Print Assumptions C81_add_assign_scalar.
Theorem C81_sub_assign : forall p rnd fuel d (s rhs : spline (point R d)), (0 < p)%nat -> nearest p rnd ->
  wf s -> wf rhs -> length (degrees rhs) = length (degrees s) ->
  (Z.of_nat (list_max (max_degs (degrees s) (degrees rhs))) < 2 ^ Z.of_nat p)%Z ->
  (Z.of_nat (n_coeffs (max_degs (degrees s) (degrees rhs))) < 2 ^ 31)%Z ->
  (list_max (max_degs (degrees s) (degrees rhs)) < fuel)%nat -> 
  exists r, spline_sub_assign_rnd rnd fuel s rhs = Ok r /\ wf r /\ degrees r = max_degs (degrees s) (degrees rhs) /\
    forall c B1 B2, (c < d)%nat -> coord_bound s c B1 -> coord_bound rhs c B2 ->
      forall xs, length xs = length (degrees s) -> in_unit_box xs ->
        Rabs (coord d (value_at r xs) c - (coord d (value_at s xs) c - coord d (value_at rhs xs) c)) <=
          sum_error p (elevations (degrees s) (degrees rhs)) (elevations (degrees rhs) (degrees s)) B1 B2.
Proof. exact c81_sub_assign. Qed.
Print Assumptions C81_sub_assign.
Theorem C81_sub_assign_scalar : forall p rnd fuel (s rhs : spline R), (0 < p)%nat -> nearest p rnd ->
  wf s -> wf rhs -> length (degrees rhs) = length (degrees s) ->
  (Z.of_nat (list_max (max_degs (degrees s) (degrees rhs))) < 2 ^ Z.of_nat p)%Z ->
  (Z.of_nat (n_coeffs (max_degs (degrees s) (degrees rhs))) < 2 ^ 31)%Z ->
  (list_max (max_degs (degrees s) (degrees rhs)) < fuel)%nat -> 
  forall B1 B2, coeff_bound s B1 -> coeff_bound rhs B2 ->
  exists r, spline_sub_assign_rnd_s rnd fuel s rhs = Ok r /\ wf r /\ degrees r = max_degs (degrees s) (degrees rhs) /\
    forall xs, length xs = length (degrees s) -> in_unit_box xs ->
      Rabs (value_at r xs - (value_at s xs - value_at rhs xs)) <=
        sum_error p (elevations (degrees s) (degrees rhs)) (elevations (degrees rhs) (degrees s)) B1 B2.
Proof. exact c81_sub_assign_scalar. Qed.
Print Assumptions C81_sub_assign_scalar.
(** A linear function is elevated and added to a quadratic one, in double precision. *)
Example C81_case :
  let a : spline R := mkSpline [1%nat] 2 [1%nat] [1; 3] in
  let b : spline R := mkSpline [2%nat] 3 [1%nat] [0; 4; -2] in
  wf a /\ wf b /\ coeff_bound a 3 /\ coeff_bound b 4 /\ in_unit_box [1 / 2] /\
  value_at a [1 / 2] = 2 /\ value_at b [1 / 2] = 3 / 2 /\
  elevations (degrees a) (degrees b) = 1%nat /\ elevations (degrees b) (degrees a) = 0%nat /\
  (exists e e0, OrderElevate_rnd_s (round_to 53) a 0 = Ok e /\ OrderElevate a 0 = Ok e0 /\ degrees e = [2%nat] /\
    Rabs (nth 1 (control_points e) 0 - nth 1 (control_points e0) 0) <= 90 / 2 ^ 53) /\
  exists r, spline_add_rnd_s (round_to 53) 3 a b = Ok r /\ degrees r = [2%nat] /\
    Rabs (value_at r [1 / 2] - 7 / 2) <= sum_error 53 1 0 3 4.
Proof.
  intros a b.
  assert (Wa : wf a) by (repeat split; discriminate). assert (Wb : wf b) by (repeat split; discriminate).
  assert (HR : nearest 53 (round_to 53)) by (apply nearest_round_to; lia).
  assert (Ba : coeff_bound a 3).
  { intros i Hi. change (n_coeffs (degrees a)) with 2%nat in Hi. destruct i as [|[|i]]; [| |lia]; cbn; rewrite Rabs_right; lra. }
  assert (Bb : coeff_bound b 4).
  { intros i Hi. change (n_coeffs (degrees b)) with 3%nat in Hi. destruct i as [|[|[|i]]]; [| | |lia]; cbn.
    - rewrite Rabs_R0. lra. - rewrite Rabs_right; lra. - rewrite Rabs_left; lra. }
  assert (HX : in_unit_box [1 / 2]) by (constructor; [lra|constructor]).
  assert (Va : value_at a [1 / 2] = 2) by (cbn; lra). assert (Vb : value_at b [1 / 2] = 3 / 2) by (cbn; lra).
  do 7 (split; [assumption|]). split; [reflexivity|]. split; [reflexivity|]. split.
  - destruct (C81_elevate_scalar 53 (round_to 53) a 0) with (B := 3) as (e & e0 & E & E0 & _ & De & _ & K & _); auto; try (cbn; lia).
    exists e, e0. split; [exact E|]. split; [exact E0|]. split; [exact De|].
    assert (G : 0 <= gamma 53 5 <= 2 * INR 5 * / 2 ^ 53) by (apply C71_gamma; simpl; lra).
    specialize (K 1%nat). rewrite De in K. cbn in K. specialize (K ltac:(unfold n_coeffs; simpl; lia)). simpl in G. cbn in K. lra.
  - destruct (C81_add_scalar 53 (round_to 53) 3 a b) with (B1 := 3) (B2 := 4) as (r & E & _ & D & K); auto; try (cbn; lia).
    exists r. split; [exact E|]. split; [exact D|]. specialize (K [1 / 2] eq_refl HX). rewrite Va, Vb in K.
    replace (7 / 2) with (2 + 3 / 2) by lra. exact K.
Qed.

(** C82: subdivision in rounded arithmetic. *)
Theorem C82_split : forall p rnd d (s : spline (point R d)) x k, (0 < p)%nat -> nearest p rnd ->
  wf s -> (k < length (degrees s))%nat -> 0 < x < 1 ->
  exists l r l0 r0, SplitAtPosition_rnd rnd s x k = Ok [l; r] /\ SplitAtPosition s x k = Ok [l0; r0] /\
    wf l /\ wf r /\ degrees l = degrees s /\ degrees r = degrees s /\
    forall c B, (c < d)%nat -> coord_bound s c B ->
      (forall i, (i < n_coeffs (degrees s))%nat ->
        Rabs (coord d (nth i (control_points l) v0) c - coord d (nth i (control_points l0) v0) c) <= gamma p (3 * nth k (degrees s) 0%nat) * B /\
        Rabs (coord d (nth i (control_points r) v0) c - coord d (nth i (control_points r0) v0) c) <= gamma p (3 * nth k (degrees s) 0%nat) * B) /\
      forall xs, length xs = length (degrees s) -> in_unit_box xs ->
        Rabs (coord d (value_at l xs) c - coord d (value_at s (upd_list xs k (x * nth k xs 0))) c) <=
          gamma p (3 * nth k (degrees s) 0%nat) * B /\
        Rabs (coord d (value_at r xs) c - coord d (value_at s (upd_list xs k (x + (1 - x) * nth k xs 0))) c) <=
          gamma p (3 * nth k (degrees s) 0%nat) * B.
Proof. exact c82_split. Qed.
Print Assumptions C82_split.
Theorem C82_split_scalar : forall p rnd (s : spline R) x k, (0 < p)%nat -> nearest p rnd ->
  wf s -> (k < length (degrees s))%nat -> 0 < x < 1 -> forall B, coeff_bound s B ->
  exists l r l0 r0, SplitAtPosition_rnd_s rnd s x k = Ok [l; r] /\ SplitAtPosition s x k = Ok [l0; r0] /\
    wf l /\ wf r /\ degrees l = degrees s /\ degrees r = degrees s /\
    (forall i, (i < n_coeffs (degrees s))%nat ->
      Rabs (nth i (control_points l) 0 - nth i (control_points l0) 0) <= gamma p (3 * nth k (degrees s) 0%nat) * B /\
      Rabs (nth i (control_points r) 0 - nth i (control_points r0) 0) <= gamma p (3 * nth k (degrees s) 0%nat) * B) /\
    forall xs, length xs = length (degrees s) -> in_unit_box xs ->
      Rabs (value_at l xs - value_at s (upd_list xs k (x * nth k xs 0))) <= gamma p (3 * nth k (degrees s) 0%nat) * B /\
      Rabs (value_at r xs - value_at s (upd_list xs k (x + (1 - x) * nth k xs 0))) <= gamma p (3 * nth k (degrees s) 0%nat) * B.
Proof. exact c82_split_scalar. Qed.
Print Assumptions C82_split_scalar.
(** A parabola is split at 1/4. *)
Example C82_case :
  let s : spline R := mkSpline [2%nat] 3 [1%nat] [1; 3; -5] in
  wf s /\ coeff_bound s 5 /\ in_unit_box [1 / 2] /\ value_at s [1 / 4 * (1 / 2)] = 43 / 32 /\
  exists l r, SplitAtPosition_rnd_s (round_to 53) s (1 / 4) 0 = Ok [l; r] /\
    Rabs (value_at l [1 / 2] - 43 / 32) <= 60 / 2 ^ 53.
Proof.
  intros s.
  assert (Hw : wf s) by (repeat split; discriminate).
  assert (HR : nearest 53 (round_to 53)) by (apply nearest_round_to; lia).
  assert (HB : coeff_bound s 5).
  { intros i Hi. change (n_coeffs (degrees s)) with 3%nat in Hi. destruct i as [|[|[|i]]]; [| | |lia]; cbn.
    - rewrite Rabs_right; lra. - rewrite Rabs_right; lra. - rewrite Rabs_left; lra. }
  assert (HX : in_unit_box [1 / 2]) by (constructor; [lra|constructor]).
  assert (HV : value_at s [1 / 4 * (1 / 2)] = 43 / 32) by (cbn; lra).
  do 4 (split; [assumption|]).
  destruct (C82_split_scalar 53 (round_to 53) s (1 / 4) 0) with (B := 5) as (l & r & _ & _ & E & _ & _ & _ & _ & _ & _ & K); auto; try lia; try lra; try (cbn; lia).
  exists l, r. split; [exact E|]. destruct (K [1 / 2] eq_refl HX) as (K1 & _).
  assert (G : 0 <= gamma 53 6 <= 2 * INR 6 * / 2 ^ 53) by (apply C71_gamma; simpl; lra). simpl in G.
  cbn [degrees s nth upd_list] in K1. rewrite HV in K1. change (3 * 2)%nat with 6%nat in K1. lra.
Qed.

(** C83: derivative splines in rounded arithmetic. *)
Theorem C83_derivative : forall p rnd MAXB d (s : spline (point R d)) orders, (0 < p)%nat -> nearest p rnd -> (MAXB <= 68)%nat ->
  wf s -> length orders = length (degrees s) -> Forall2 le orders (degrees s) -> Forall (fun k => (k < MAXB)%nat) orders ->
  exists r r0, DerivativeWRT_rnd rnd MAXB s orders = Ok r /\ DerivativeWRT MAXB s orders = Ok r0 /\
    wf r /\ wf r0 /\ degrees r = map2 Nat.sub (degrees s) orders /\ degrees r0 = degrees r /\
    forall c B, (c < d)%nat -> coord_bound s c B ->
      (forall i, (i < n_coeffs (degrees r))%nat ->
        Rabs (coord d (nth i (control_points r) v0) c - coord d (nth i (control_points r0) v0) c) <=
          gamma p (derivative_roundings orders) * (derivative_scale (degrees s) orders * B)) /\
      forall xs, length xs = length (degrees s) -> in_unit_box xs ->
        Rabs (coord d (value_at r xs) c - coord d (value_at r0 xs) c) <=
          gamma p (derivative_roundings orders) * (derivative_scale (degrees s) orders * B).
Proof. exact c83_derivative. Qed.
Print Assumptions C83_derivative.
Theorem C83_derivative_scalar : forall p rnd MAXB (s : spline R) orders, (0 < p)%nat -> nearest p rnd -> (MAXB <= 68)%nat ->
  wf s -> length orders = length (degrees s) -> Forall2 le orders (degrees s) -> Forall (fun k => (k < MAXB)%nat) orders ->
  forall B, coeff_bound s B ->
  exists r r0, DerivativeWRT_rnd_s rnd MAXB s orders = Ok r /\ DerivativeWRT MAXB s orders = Ok r0 /\
    wf r /\ wf r0 /\ degrees r = map2 Nat.sub (degrees s) orders /\ degrees r0 = degrees r /\
    (forall i, (i < n_coeffs (degrees r))%nat ->
      Rabs (nth i (control_points r) 0 - nth i (control_points r0) 0) <=
        gamma p (derivative_roundings orders) * (derivative_scale (degrees s) orders * B)) /\
    forall xs, length xs = length (degrees s) -> in_unit_box xs ->
      Rabs (value_at r xs - value_at r0 xs) <=
        gamma p (derivative_roundings orders) * (derivative_scale (degrees s) orders * B).
Proof. exact c83_derivative_scalar. Qed.
Print Assumptions C83_derivative_scalar.
(** The derivative of a parabola is linear with coefficients 4 and -16. *)
Example C83_case :
  let s : spline R := mkSpline [2%nat] 3 [1%nat] [1; 3; -5] in
  wf s /\ coeff_bound s 5 /\ derivative_scale (degrees s) [1%nat] = 4 /\ derivative_roundings [1%nat] = 7%nat /\
  exists r r0, DerivativeWRT_rnd_s (round_to 53) 3 s [1%nat] = Ok r /\ DerivativeWRT 3 s [1%nat] = Ok r0 /\
    degrees r = [1%nat] /\ Rabs (nth 1 (control_points r) 0 - nth 1 (control_points r0) 0) <= 280 / 2 ^ 53.
Proof.
  intros s.
  assert (Hw : wf s) by (repeat split; discriminate).
  assert (HR : nearest 53 (round_to 53)) by (apply nearest_round_to; lia).
  assert (HB : coeff_bound s 5).
  { intros i Hi. change (n_coeffs (degrees s)) with 3%nat in Hi. destruct i as [|[|[|i]]]; [| | |lia]; cbn.
    - rewrite Rabs_right; lra. - rewrite Rabs_right; lra. - rewrite Rabs_left; lra. }
  assert (HS : derivative_scale (degrees s) [1%nat] = 4) by (cbn; lra).
  do 3 (split; [assumption|]). split; [reflexivity|].
  destruct (C83_derivative_scalar 53 (round_to 53) 3 s [1%nat]) with (B := 5) as (r & r0 & E & E0 & _ & _ & D & _ & K & _); auto; try lia;
    try (repeat constructor; lia).
  exists r, r0. split; [exact E|]. split; [exact E0|]. split; [exact D|].
  assert (G : 0 <= gamma 53 7 <= 2 * INR 7 * / 2 ^ 53) by (apply C71_gamma; simpl; lra). simpl in G.
  specialize (K 1%nat). rewrite D, HS in K. specialize (K ltac:(cbn; lia)). change (derivative_roundings [1%nat]) with 7%nat in K. lra.
Qed.

(** C84: the pieces of a subdivided spline share their faces, whatever the arithmetic. *)
Theorem C84_split : forall (T V : Type) (o : SOps T) (ov : VOps T V) (s : spline V) x k parts,
  wf s -> (k < length (degrees s))%nat -> SplitAtPosition s x k = Ok parts ->
  exists l r, parts = [l; r] /\ wf l /\ wf r /\ degrees l = degrees s /\ degrees r = degrees s /\
    same_near_face k l s /\ joined k l r /\ same_far_face k r s.
Proof. exact c84_split. Qed.
Print Assumptions C84_split.
Theorem C84_splits : forall (T V : Type) (o : SOps T) (ov : VOps T V) (s : spline V) planes k parts,
  wf s -> (k < length (degrees s))%nat -> SplitAtPositions s planes k = Ok parts ->
  length parts = S (length planes) /\ Forall (fun q => wf q /\ degrees q = degrees s) parts /\
  same_near_face k (nth 0 parts s) s /\ same_far_face k (nth (length planes) parts s) s /\
  forall i, (i < length planes)%nat -> joined k (nth i parts s) (nth (S i) parts s).
Proof. exact c84_splits. Qed.
Print Assumptions C84_splits.
Theorem C84_watertight : forall p rnd d (a b : spline (point R d)) k xs, (0 < p)%nat -> nearest p rnd ->
  wf a -> wf b -> degrees b = degrees a -> (k < length (degrees a))%nat -> length xs = length (degrees a) -> joined k a b ->
  (forall q c, In q (control_points a ++ control_points b) -> (c < d)%nat -> representable p (coord d q c)) ->
  Evaluate_rnd rnd a (upd_list xs k 1) = Evaluate_rnd rnd b (upd_list xs k 0).
Proof. exact c84_watertight. Qed.
Print Assumptions C84_watertight.
Theorem C84_pieces : forall p rnd d (s : spline (point R d)) planes k parts, (0 < p)%nat -> nearest p rnd ->
  wf s -> (k < length (degrees s))%nat -> SplitAtPositions_rnd rnd s planes k = Ok parts ->
  (forall q c, In q (control_points s) -> (c < d)%nat -> representable p (coord d q c)) ->
  length parts = S (length planes) /\
  forall i xs, (i < length planes)%nat -> length xs = length (degrees s) ->
    Evaluate_rnd rnd (nth i parts s) (upd_list xs k 1) = Evaluate_rnd rnd (nth (S i) parts s) (upd_list xs k 0).
Proof. exact c84_pieces. Qed.
Print Assumptions C84_pieces.
(** A parabola cut at 1/2 and 3/4 in double precision. *)
Example C84_case :
  let s : spline (point R 1) := mkSpline [2%nat] 3 [1%nat] [(1, tt); (3, tt); (-5, tt)] in
  wf s /\ (forall q c, In q (control_points s) -> (c < 1)%nat -> representable 53 (coord 1 q c)) /\
  exists a b e, SplitAtPositions_rnd (round_to 53) s [1 / 2; 3 / 4] 0 = Ok [a; b; e] /\
    Evaluate_rnd (round_to 53) a [1] = Evaluate_rnd (round_to 53) b [0] /\
    Evaluate_rnd (round_to 53) b [1] = Evaluate_rnd (round_to 53) e [0].
Proof.
  intros s.
  assert (Hw : wf s) by (repeat split; discriminate).
  assert (HR : nearest 53 (round_to 53)) by (apply nearest_round_to; lia).
  assert (HC : forall q c, In q (control_points s) -> (c < 1)%nat -> representable 53 (coord 1 q c)).
  { intros q c Hq Hc. replace c with 0%nat by lia.
    destruct Hq as [<-|[<-|[<-|[]]]]; unfold coord; cbn [plist fst nth].
    - exists 1%Z, 0%Z. split; [vm_compute; reflexivity|simpl; lra].
    - exists 3%Z, 0%Z. split; [vm_compute; reflexivity|simpl; lra].
    - exists (-5)%Z, 0%Z. split; [vm_compute; reflexivity|simpl; lra]. }
  split; [exact Hw|]. split; [exact HC|].
  assert (X1 : round_to 53 (1 / 2) = 1 / 2).
  { apply (nearest_exact 53); auto. exists 1%Z, (-1)%Z. split; [vm_compute; reflexivity|simpl; lra]. }
  assert (X2 : round_to 53 (1 / 4) = 1 / 4).
  { apply (nearest_exact 53); auto. exists 1%Z, (-2)%Z. split; [vm_compute; reflexivity|simpl; lra]. }
  assert (EX : exists parts, SplitAtPositions_rnd (round_to 53) s [1 / 2; 3 / 4] 0 = Ok parts /\ length parts = 3%nat).
  { unfold SplitAtPositions_rnd, SplitAtPositions.
    assert (ES : is_sorted (o := SOps_rnd (round_to 53)) [1 / 2; 3 / 4] = true).
    { cbn. destruct (Rlt_dec (3 / 4) (1 / 2)); [lra|reflexivity]. }
    rewrite ES. cbn [negb length Nat.eqb get nth_error bind Nat.sub for_up].
    destruct (C82_split 53 (round_to 53) 1 s (1 / 2) 0) as (l & r & _ & _ & E & _ & W1 & W2 & D1 & D2 & _); auto; try lia; try lra.
    unfold SplitAtPosition_rnd in E. rewrite E. cbn [bind get nth_error].
    assert (ER : divS (H := SOps_rnd (round_to 53)) (ssub (SOps := SOps_rnd (round_to 53)) (3 / 4) (1 / 2))
                   (ssub (SOps := SOps_rnd (round_to 53)) (s1 (SOps := SOps_rnd (round_to 53))) (1 / 2)) = Ok (1 / 2)).
    { unfold divS. cbn [ssub sdiv seqb s0 s1 SOps_rnd]. replace (1 - 1 / 2) with (1 / 2) by lra. replace (3 / 4 - 1 / 2) with (1 / 4) by lra.
      rewrite X1, X2. destruct (Req_EM_T (1 / 2) 0); [lra|]. f_equal.
      replace (1 / 4 / (1 / 2)) with (1 / 2) by lra. exact X1. }
    rewrite ER. cbn [bind get nth_error].
    destruct (C82_split 53 (round_to 53) 1 r (1 / 2) 0) as (l' & r' & _ & _ & E' & _); auto; try lia; try lra; try (rewrite D2; cbn; lia).
    unfold SplitAtPosition_rnd in E'. rewrite E'. cbn [bind get nth_error]. eexists. split; reflexivity. }
  destruct EX as (parts & E & HL).
  destruct (C84_pieces 53 (round_to 53) 1 s [1 / 2; 3 / 4] 0 parts) as (_ & H); auto; try lia; try (cbn; lia).
  destruct parts as [|a [|b [|e [|]]]]; try discriminate. exists a, b, e. split; [exact E|].
  split; [exact (H 0%nat [0] ltac:(cbn; lia) eq_refl)|exact (H 1%nat [0] ltac:(cbn; lia) eq_refl)].
Qed.
