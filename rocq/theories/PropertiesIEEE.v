(** Properties C89-C91: evaluation, subdivision and elevation with a bounded exponent range. *)
From Coq Require Import Arith Lia List Bool ZArith Reals Lra.
From Verif Require Import Prelude Scalar Spec SpecSpline Coord ModelBasis ModelSpline
  ModelRound SpecRound ModelIEEE SpecIEEE ProofRound ProofEval ProofIEEE ClaimsU ClaimsIEEE.
Import ListNotations.
Local Open Scope R_scope.

(** C89: evaluation does not overflow. *)
Theorem C89_evaluate : forall F rnd d (s : spline (point R d)) xs, reasonable F -> nearest_on_grid F rnd ->
  wf s -> length xs = length (degrees s) -> in_unit_box xs -> Forall (on_grid F) xs -> machine_points F s ->
  exists e, Evaluate_ieee F rnd (fin_spline s) (map Fin xs) = Ok (fin_point d e) /\ forall k, (k < d)%nat ->
    machine F (coord d e k) /\
    Rabs (coord d e k - coord d (value_at s xs) k) <=
      gamma (prec F) (casteljau_roundings (degrees s)) * magnitude s xs k + underflow F (list_sum (degrees s)).
Proof. exact c89_evaluate. Qed.
Print Assumptions C89_evaluate.
Theorem C89_evaluate_scalar : forall F rnd (s : spline R) xs, reasonable F -> nearest_on_grid F rnd ->
  wf s -> length xs = length (degrees s) -> in_unit_box xs -> Forall (on_grid F) xs -> machine_coeffs F s ->
  exists e, Evaluate_ieee_s F rnd (fin_spline_s s) (map Fin xs) = Ok (Fin e) /\ machine F e /\
    Rabs (e - value_at s xs) <=
      gamma (prec F) (casteljau_roundings (degrees s)) * magnitude_s s xs + underflow F (list_sum (degrees s)).
Proof. exact c89_evaluate_scalar. Qed.
Print Assumptions C89_evaluate_scalar.
Theorem C89_underflow : forall F n, INR (3 * n) * / 2 ^ prec F <= 1 / 2 -> 0 <= underflow F n <= 2 * INR n * tiny F.
Proof. exact c89_underflow. Qed.
Print Assumptions C89_underflow.
Theorem C89_corners : forall F rnd d (s : spline (point R d)) xs, reasonable F -> nearest_on_grid F rnd ->
  wf s -> length xs = length (degrees s) -> Forall (fun x => x = 0 \/ x = 1) xs -> machine_points F s ->
  Evaluate_ieee F rnd (fin_spline s) (map Fin xs) = Ok (fin_point d (value_at s xs)).
Proof. exact c89_corners. Qed.
Print Assumptions C89_corners.
Theorem C89_outside : forall F rnd, reasonable F -> nearest_on_grid F rnd ->
  exists (s : spline R) x, wf s /\ degrees s = [1%nat] /\ machine_coeffs F s /\ machine F x /\
    Evaluate_ieee_s F rnd (fin_spline_s s) [Fin x] = Ok Exc.
Proof. exact c89_outside. Qed.
Print Assumptions C89_outside.
Theorem C89_formats : reasonable binary64 /\ reasonable binary32.
Proof. exact c89_formats. Qed.
Print Assumptions C89_formats.
(** The largest finite and the smallest positive number of the formats. *)
Theorem C89_limits : omega binary64 = 2 ^ 1024 - 2 ^ 971 /\ tiny binary64 = / 2 ^ 1074 /\
  omega binary32 = 2 ^ 128 - 2 ^ 104 /\ tiny binary32 = / 2 ^ 149.
Proof. exact c89_limits. Qed.
Print Assumptions C89_limits.
Theorem C89_rounding_exists : forall F, reasonable F -> exists rnd, nearest_on_grid F rnd.
Proof. exact c89_rounding_exists. Qed.
Print Assumptions C89_rounding_exists.
(** Largest and smallest doubles: a quadratic with coefficients at the end of the range, and a linear
    function whose values are below the smallest positive number. *)
Example C89_case :
  let M := omega binary64 in
  let s : spline R := mkSpline [2%nat] 3 [1%nat] [M; - M; M] in
  let t : spline R := mkSpline [1%nat] 2 [1%nat] [0; tiny binary64] in
  reasonable binary64 /\ wf s /\ wf t /\ machine_coeffs binary64 s /\ machine_coeffs binary64 t /\
  Forall (on_grid binary64) [5 / 8] /\ in_unit_box [5 / 8] /\
  value_at s [5 / 8] = M / 16 /\ value_at t [5 / 8] = 5 / 8 * tiny binary64 /\
  forall rnd, nearest_on_grid binary64 rnd -> exists e e',
    Evaluate_ieee_s binary64 rnd (fin_spline_s s) [Fin (5 / 8)] = Ok (Fin e) /\ Rabs e <= M /\
    Rabs (e - M / 16) <= gamma 53 6 * M + underflow binary64 2 /\
    Evaluate_ieee_s binary64 rnd (fin_spline_s t) [Fin (5 / 8)] = Ok (Fin e') /\
    Rabs (e' - 5 / 8 * tiny binary64) <= 2 * tiny binary64.
Proof.
  intros M s t. assert (HF : reasonable binary64) by apply C89_formats.
  assert (PM : 0 < M) by (apply omega_pos; auto). assert (PT : 0 < tiny binary64) by apply two_pos.
  assert (GM : on_grid binary64 M) by (apply grid_omega; auto).
  assert (Hs : wf s) by (repeat split; discriminate). assert (Ht : wf t) by (repeat split; discriminate).
  assert (Ms : machine_coeffs binary64 s).
  { repeat constructor; auto; [rewrite Rabs_right; fold M; lra|apply grid_opp; auto|rewrite Rabs_Ropp, Rabs_right; fold M; lra|rewrite Rabs_right; fold M; lra]. }
  assert (T1 : tiny binary64 <= 1) by (unfold tiny; change 1 with (powerRZ 2 0); apply two_le; simpl; lia).
  assert (M1 : 1 <= M) by (apply omega_1; auto).
  assert (Mt : machine_coeffs binary64 t).
  { constructor; [split; [apply grid_0|rewrite Rabs_R0; fold M; lra]|]. constructor; [|constructor].
    split; [apply grid_w; auto; lia|rewrite Rabs_right; fold M; lra]. }
  assert (GX : Forall (on_grid binary64) [5 / 8]).
  { constructor; [|constructor]. exists 5%Z, (-3)%Z. split; [reflexivity|]. split; [simpl; lia|simpl; lra]. }
  assert (HX : in_unit_box [5 / 8]) by (constructor; [lra|constructor]).
  assert (Vs : value_at s [5 / 8] = M / 16) by (unfold s; clear; generalize M; intros m; cbn; lra).
  assert (Vt : value_at t [5 / 8] = 5 / 8 * tiny binary64) by (unfold t; clear; generalize (tiny binary64); intros m; cbn; lra).
  do 9 (split; [assumption|]). intros rnd HR.
  destruct (C89_evaluate_scalar binary64 rnd s [5 / 8] HF HR Hs eq_refl HX GX Ms) as (e & E & (_ & B) & K).
  destruct (C89_evaluate_scalar binary64 rnd t [5 / 8] HF HR Ht eq_refl HX GX Mt) as (e' & E' & _ & K').
  exists e, e'. split; [exact E|]. split; [exact B|]. rewrite Vs in K. rewrite Vt in K'. split; [|split; [exact E'|]].
  - assert (EM : magnitude_s s [5 / 8] = M).
    { unfold s. clear - PM. revert PM. generalize M. intros m Pm. unfold magnitude_s. cbn. rewrite Rabs_Ropp, Rabs_right by lra. lra. }
    rewrite EM in K. exact K.
  - assert (EM : magnitude_s t [5 / 8] = 5 / 8 * tiny binary64).
    { unfold t. clear - PT. revert PT. generalize (tiny binary64). intros m Pm. unfold magnitude_s. cbn. rewrite Rabs_R0, Rabs_right by lra. lra. }
    rewrite EM in K'. change (list_sum (degrees t)) with 1%nat in K'. change (casteljau_roundings (degrees t)) with 3%nat in K'.
    change (prec binary64) with 53%nat in K'.
    assert (G : 0 <= gamma 53 3 <= 2 * INR 3 * / 2 ^ 53) by (apply c71_gamma; simpl; lra).
    assert (U : underflow binary64 1 = tiny binary64 * (1 + gamma 53 3)).
    { unfold underflow, gamma. change (3 * 1)%nat with 3%nat. change (prec binary64) with 53%nat. simpl INR. ring. }
    rewrite U in K'. assert (0 <= gamma 53 3 <= 1 / 8) by (simpl in G; lra). set (T := tiny binary64) in *. clearbody T. nra.
Qed.

(** C90: subdivision. *)
Theorem C90_split : forall F rnd d (s : spline (point R d)) x k, reasonable F -> nearest_on_grid F rnd ->
  wf s -> (k < length (degrees s))%nat -> on_grid F x -> 0 < x < 1 -> machine_points F s ->
  exists l r l0 r0, SplitAtPosition_ieee F rnd (fin_spline s) (Fin x) k = Ok [fin_spline l; fin_spline r] /\
    SplitAtPosition s x k = Ok [l0; r0] /\
    wf l /\ wf r /\ degrees l = degrees s /\ degrees r = degrees s /\ machine_points F l /\ machine_points F r /\
    forall c B, (c < d)%nat -> coord_bound s c B ->
      let err := gamma (prec F) (3 * nth k (degrees s) 0%nat) * B + underflow F (nth k (degrees s) 0%nat) in
      (forall i, (i < n_coeffs (degrees s))%nat ->
        Rabs (coord d (nth i (control_points l) v0) c - coord d (nth i (control_points l0) v0) c) <= err /\
        Rabs (coord d (nth i (control_points r) v0) c - coord d (nth i (control_points r0) v0) c) <= err) /\
      forall xs, length xs = length (degrees s) -> in_unit_box xs ->
        Rabs (coord d (value_at l xs) c - coord d (value_at s (upd_list xs k (x * nth k xs 0))) c) <= err /\
        Rabs (coord d (value_at r xs) c - coord d (value_at s (upd_list xs k (x + (1 - x) * nth k xs 0))) c) <= err.
Proof. exact c90_split. Qed.
Print Assumptions C90_split.
Theorem C90_split_scalar : forall F rnd (s : spline R) x k, reasonable F -> nearest_on_grid F rnd ->
  wf s -> (k < length (degrees s))%nat -> on_grid F x -> 0 < x < 1 -> machine_coeffs F s -> forall B, coeff_bound s B ->
  exists l r l0 r0, SplitAtPosition_ieee_s F rnd (fin_spline_s s) (Fin x) k = Ok [fin_spline_s l; fin_spline_s r] /\
    SplitAtPosition s x k = Ok [l0; r0] /\
    wf l /\ wf r /\ degrees l = degrees s /\ degrees r = degrees s /\ machine_coeffs F l /\ machine_coeffs F r /\
    let err := gamma (prec F) (3 * nth k (degrees s) 0%nat) * B + underflow F (nth k (degrees s) 0%nat) in
    (forall i, (i < n_coeffs (degrees s))%nat ->
      Rabs (nth i (control_points l) 0 - nth i (control_points l0) 0) <= err /\
      Rabs (nth i (control_points r) 0 - nth i (control_points r0) 0) <= err) /\
    forall xs, length xs = length (degrees s) -> in_unit_box xs ->
      Rabs (value_at l xs - value_at s (upd_list xs k (x * nth k xs 0))) <= err /\
      Rabs (value_at r xs - value_at s (upd_list xs k (x + (1 - x) * nth k xs 0))) <= err.
Proof. exact c90_split_scalar. Qed.
Print Assumptions C90_split_scalar.
(** A parabola that ends at the largest double is split at 1/4. *)
Example C90_case :
  let M := omega binary64 in
  let s : spline R := mkSpline [2%nat] 3 [1%nat] [0; 0; M] in
  reasonable binary64 /\ wf s /\ machine_coeffs binary64 s /\ on_grid binary64 (1 / 4) /\ coeff_bound s M /\
  value_at s [1 / 4 * (1 / 2)] = M / 64 /\
  forall rnd, nearest_on_grid binary64 rnd -> exists l r,
    SplitAtPosition_ieee_s binary64 rnd (fin_spline_s s) (Fin (1 / 4)) 0 = Ok [fin_spline_s l; fin_spline_s r] /\
    machine_coeffs binary64 l /\ machine_coeffs binary64 r /\
    Rabs (value_at l [1 / 2] - M / 64) <= gamma 53 6 * M + underflow binary64 2.
Proof.
  intros M s. assert (HF : reasonable binary64) by apply C89_formats.
  assert (PM : 0 < M) by (apply omega_pos; auto).
  assert (Hs : wf s) by (repeat split; discriminate).
  assert (Z : machine binary64 0) by (split; [apply grid_0|rewrite Rabs_R0; fold M; lra]).
  assert (Ms : machine_coeffs binary64 s).
  { constructor; [exact Z|]. constructor; [exact Z|]. constructor; [|constructor]. split; [apply grid_omega; auto|rewrite Rabs_right; fold M; lra]. }
  assert (GX : on_grid binary64 (1 / 4)) by (exists 1%Z, (-2)%Z; split; [reflexivity|split; [simpl; lia|simpl; lra]]).
  assert (HB : coeff_bound s M).
  { intros i Hi. change (n_coeffs (degrees s)) with 3%nat in Hi. destruct i as [|[|[|i]]]; [| | |lia]; cbn [nth control_points s];
      [rewrite Rabs_R0; lra|rewrite Rabs_R0; lra|rewrite Rabs_right; lra]. }
  assert (HV : value_at s [1 / 4 * (1 / 2)] = M / 64) by (unfold s; clear; generalize M; intros m; cbn; lra).
  do 6 (split; [assumption|]). intros rnd HR.
  destruct (C90_split_scalar binary64 rnd s (1 / 4) 0 HF HR Hs ltac:(cbn; lia) GX ltac:(lra) Ms M HB)
    as (l & r & l0 & r0 & E & _ & _ & _ & _ & _ & Ml & Mr & _ & K).
  exists l, r. split; [exact E|]. split; [exact Ml|]. split; [exact Mr|].
  destruct (K [1 / 2] eq_refl ltac:(constructor; [lra|constructor])) as (K1 & _). cbn [nth upd_list degrees s] in K1.
  rewrite HV in K1. exact K1.
Qed.

(** C91: degree elevation. *)
Theorem C91_elevate : forall F rnd d (s : spline (point R d)) k, reasonable F -> nearest_on_grid F rnd ->
  wf s -> (k < length (degrees s))%nat -> machine_points F s ->
  (Z.of_nat (nth k (degrees s) 0%nat + 1) < 2 ^ Z.of_nat (prec F))%Z ->
  (Z.of_nat (n_coeffs (upd_list (degrees s) k (S (nth k (degrees s) 0%nat)))) < 2 ^ 31)%Z ->
  exists e e0, OrderElevate_ieee F rnd (fin_spline s) k = Ok (fin_spline e) /\ OrderElevate s k = Ok e0 /\ wf e /\
    degrees e = upd_list (degrees s) k (S (nth k (degrees s) 0%nat)) /\ degrees e0 = degrees e /\ machine_points F e /\
    forall c B, (c < d)%nat -> coord_bound s c B ->
      let err := (gamma (prec F) 3 + 2 * gamma (prec F) 2) * B + underflow F 1 in
      (forall i, (i < n_coeffs (degrees e))%nat ->
        Rabs (coord d (nth i (control_points e) v0) c - coord d (nth i (control_points e0) v0) c) <= err) /\
      forall xs, length xs = length (degrees s) -> in_unit_box xs ->
        Rabs (coord d (value_at e xs) c - coord d (value_at s xs) c) <= err.
Proof. exact c91_elevate. Qed.
Print Assumptions C91_elevate.
Theorem C91_elevate_scalar : forall F rnd (s : spline R) k, reasonable F -> nearest_on_grid F rnd ->
  wf s -> (k < length (degrees s))%nat -> machine_coeffs F s ->
  (Z.of_nat (nth k (degrees s) 0%nat + 1) < 2 ^ Z.of_nat (prec F))%Z ->
  (Z.of_nat (n_coeffs (upd_list (degrees s) k (S (nth k (degrees s) 0%nat)))) < 2 ^ 31)%Z -> forall B, coeff_bound s B ->
  exists e e0, OrderElevate_ieee_s F rnd (fin_spline_s s) k = Ok (fin_spline_s e) /\ OrderElevate s k = Ok e0 /\ wf e /\
    degrees e = upd_list (degrees s) k (S (nth k (degrees s) 0%nat)) /\ degrees e0 = degrees e /\ machine_coeffs F e /\
    let err := (gamma (prec F) 3 + 2 * gamma (prec F) 2) * B + underflow F 1 in
    (forall i, (i < n_coeffs (degrees e))%nat -> Rabs (nth i (control_points e) 0 - nth i (control_points e0) 0) <= err) /\
    forall xs, length xs = length (degrees s) -> in_unit_box xs -> Rabs (value_at e xs - value_at s xs) <= err.
Proof. exact c91_elevate_scalar. Qed.
Print Assumptions C91_elevate_scalar.
(** A linear function between the two ends of the range of double. *)
Example C91_case :
  let M := omega binary64 in
  let s : spline R := mkSpline [1%nat] 2 [1%nat] [- M; M] in
  reasonable binary64 /\ wf s /\ machine_coeffs binary64 s /\ coeff_bound s M /\ in_unit_box [3 / 4] /\ value_at s [3 / 4] = M / 2 /\
  forall rnd, nearest_on_grid binary64 rnd -> exists e,
    OrderElevate_ieee_s binary64 rnd (fin_spline_s s) 0 = Ok (fin_spline_s e) /\ degrees e = [2%nat] /\ machine_coeffs binary64 e /\
    Rabs (value_at e [3 / 4] - M / 2) <= (gamma 53 3 + 2 * gamma 53 2) * M + underflow binary64 1.
Proof.
  intros M s. assert (HF : reasonable binary64) by apply C89_formats.
  assert (PM : 0 < M) by (apply omega_pos; auto).
  assert (Hs : wf s) by (repeat split; discriminate).
  assert (GM : on_grid binary64 M) by (apply grid_omega; auto).
  assert (Ms : machine_coeffs binary64 s).
  { constructor; [split; [apply grid_opp; auto|rewrite Rabs_Ropp, Rabs_right; fold M; lra]|].
    constructor; [split; [auto|rewrite Rabs_right; fold M; lra]|constructor]. }
  assert (HB : coeff_bound s M).
  { intros i Hi. change (n_coeffs (degrees s)) with 2%nat in Hi. destruct i as [|[|i]]; [| |lia]; cbn [nth control_points s];
      rewrite ?Rabs_Ropp, Rabs_right; lra. }
  assert (HX : in_unit_box [3 / 4]) by (constructor; [lra|constructor]).
  assert (HV : value_at s [3 / 4] = M / 2) by (unfold s; clear; generalize M; intros m; cbn; lra).
  do 6 (split; [assumption|]). intros rnd HR.
  destruct (C91_elevate_scalar binary64 rnd s 0 HF HR Hs ltac:(cbn; lia) Ms ltac:(cbn; lia) ltac:(cbn; lia) M HB)
    as (e & e0 & E & _ & _ & D & _ & Me & _ & K).
  exists e. split; [exact E|]. split; [exact D|]. split; [exact Me|]. specialize (K [3 / 4] eq_refl HX). rewrite HV in K. exact K.
Qed.
