(** Property C98: rational evaluation with a bounded exponent range. *)
From Coq Require Import Arith Lia List Bool ZArith Reals Lra.
From Verif Require Import Prelude Scalar Spec SpecSpline Coord ModelBasis ModelSpline ModelRational SpecRational
  ModelRound SpecRound ModelIEEE SpecIEEE ModelIEEERat SpecIEEERat ProofRound ProofEval ProofIEEE ClaimsU ClaimsIEEE ClaimsIEEERat.
Import ListNotations.
Local Open Scope R_scope.

(** C98: rational evaluation stays finite while the weights keep away from the ends of the range. *)
Theorem C98_evaluate : forall F rnd d (r : rspline R (point R d)) xs m B, reasonable F -> nearest_on_grid F rnd ->
  rwf r -> length xs = length (rdegrees r) -> in_unit_box xs -> Forall (on_grid F) xs ->
  machine_points F (weighted_spline r) -> machine_coeffs F (weight_function r) -> safe_exponent F m -> safe_weights m r ->
  INR (16 * (1 + list_sum (rdegrees r))) * / 2 ^ prec F <= 1 -> 4 * (1 + B) <= omega F ->
  (forall i k, (i < n_coeffs (rdegrees r))%nat -> (k < d)%nat ->
     Rabs (coord d (nth i (control_points (weighted_spline r)) v0) k) <= B * nth i (control_points (weight_function r)) 0) ->
  exists e, R_Evaluate_ieee F rnd (fin_rspline r) (map Fin xs) = Ok (fin_point d e) /\ forall k, (k < d)%nat ->
    machine F (coord d e k) /\
    Rabs (coord d e k - coord d (rvalue r xs) k) <=
      quotient_factor F (list_sum (rdegrees r)) 2 * (magnitude (weighted_spline r) xs k / value_at (weight_function r) xs) +
      3 * (underflow F (list_sum (rdegrees r)) / value_at (weight_function r) xs) + tiny F.
Proof. exact c98_evaluate. Qed.
Print Assumptions C98_evaluate.
Theorem C98_evaluate_scalar : forall F rnd (r : rspline R R) xs m B, reasonable F -> nearest_on_grid F rnd ->
  rwf r -> length xs = length (rdegrees r) -> in_unit_box xs -> Forall (on_grid F) xs ->
  machine_coeffs F (weighted_spline r) -> machine_coeffs F (weight_function r) -> safe_exponent F m -> safe_weights m r ->
  INR (16 * (1 + list_sum (rdegrees r))) * / 2 ^ prec F <= 1 -> 4 * (1 + B) <= omega F ->
  (forall i, (i < n_coeffs (rdegrees r))%nat ->
     Rabs (nth i (control_points (weighted_spline r)) 0) <= B * nth i (control_points (weight_function r)) 0) ->
  exists e, R_Evaluate_ieee_s F rnd (fin_rspline_s r) (map Fin xs) = Ok (Fin e) /\ machine F e /\
    Rabs (e - rvalue r xs) <=
      quotient_factor F (list_sum (rdegrees r)) 1 * (magnitude_s (weighted_spline r) xs / value_at (weight_function r) xs) +
      3 * (underflow F (list_sum (rdegrees r)) / value_at (weight_function r) xs) + tiny F.
Proof. exact c98_evaluate_scalar. Qed.
Print Assumptions C98_evaluate_scalar.
Theorem C98_factor : forall F n k, INR (16 * (1 + n)) * / 2 ^ prec F <= 1 -> (k <= 2)%nat ->
  0 <= quotient_factor F n k <= (28 * INR n + 8) * / 2 ^ prec F.
Proof. exact c98_factor. Qed.
Print Assumptions C98_factor.
Theorem C98_corners_scalar : forall F rnd (s : spline R) xs, reasonable F -> nearest_on_grid F rnd ->
  wf s -> length xs = length (degrees s) -> Forall (fun x => x = 0 \/ x = 1) xs -> machine_coeffs F s ->
  Evaluate_ieee_s F rnd (fin_spline_s s) (map Fin xs) = Ok (Fin (value_at s xs)).
Proof. exact c98_corners_scalar. Qed.
Print Assumptions C98_corners_scalar.
Theorem C98_small_weights : forall F rnd, reasonable F -> nearest_on_grid F rnd -> (emax F + Z.of_nat (prec F) <= - emin F)%Z ->
  exists r : rspline R (point R 1), rwf r /\ rdegrees r = [1%nat] /\
    machine_points F (weighted_spline r) /\ machine_coeffs F (weight_function r) /\
    Forall (fun w => 0 < w) (control_points (weight_function r)) /\ (forall x, rvalue r [x] = (1, tt)) /\
    R_Evaluate_ieee F rnd (fin_rspline r) [Fin 0] = Ok (Exc, tt).
Proof. exact c98_small_weights. Qed.
Print Assumptions C98_small_weights.
Theorem C98_zero_weight : forall F rnd, reasonable F -> nearest_on_grid F rnd -> rnd (tiny F / 2) = 0 ->
  exists r : rspline R (point R 1), rwf r /\ rdegrees r = [1%nat] /\
    machine_points F (weighted_spline r) /\ machine_coeffs F (weight_function r) /\
    Forall (fun w => 0 < w) (control_points (weight_function r)) /\ (forall x, rvalue r [x] = (1, tt)) /\
    R_Evaluate_ieee F rnd (fin_rspline r) [Fin (/ 2)] = NonFinite.
Proof. exact c98_zero_weight. Qed.
Print Assumptions C98_zero_weight.
Theorem C98_tie_exists : forall F, reasonable F -> exists rnd, nearest_on_grid F rnd /\ rnd (tiny F / 2) = 0.
Proof. exact c98_tie_exists. Qed.
Print Assumptions C98_tie_exists.
Theorem C98_formats : safe_exponent binary64 970 /\ safe_exponent binary32 103 /\
  (emax binary64 + Z.of_nat (prec binary64) <= - emin binary64)%Z /\ (emax binary32 + Z.of_nat (prec binary32) <= - emin binary32)%Z.
Proof. exact c98_formats. Qed.
Print Assumptions C98_formats.
(** A quarter of the unit circle in double precision, at the parameter of the point (3/5, 4/5). *)
Example C98_case :
  let r : rspline R (point R 2) := mkR (mkSpline [2%nat] 3 [1%nat] [(1, (0, tt)); (1, (1, tt)); (0, (2, tt))]) (mkSpline [2%nat] 3 [1%nat] [1; 1; 2]) in
  rwf r /\ machine_points binary64 (weighted_spline r) /\ machine_coeffs binary64 (weight_function r) /\ safe_weights 970 r /\
  in_unit_box [/ 2] /\ Forall (on_grid binary64) [/ 2] /\ rvalue r [/ 2] = (3 / 5, (4 / 5, tt)) /\
  forall rnd, nearest_on_grid binary64 rnd -> exists e,
    R_Evaluate_ieee binary64 rnd (fin_rspline r) [Fin (/ 2)] = Ok (fin_point 2 e) /\
    Rabs (coord 2 e 0 - 3 / 5) <= / 2 ^ 46 /\ Rabs (coord 2 e 1 - 4 / 5) <= / 2 ^ 46.
Proof.
  intros r. assert (HF : reasonable binary64) by apply c89_formats. pose proof (omega_1 binary64 HF) as O1.
  assert (Hr : rwf r) by (repeat split; discriminate).
  assert (O8 : 8 <= omega binary64).
  { rewrite omega_eq. apply Rle_trans with (powerRZ 2 971).
    - replace 8 with (powerRZ 2 3) by (simpl; ring). apply two_le; lia.
    - rewrite <- (Rmult_1_l (powerRZ 2 971)) at 1. apply Rmult_le_compat_r; [left; apply two_pos|]. apply IZR_le. simpl. lia. }
  assert (m0 : machine binary64 0) by (split; [apply grid_0|rewrite Rabs_R0; lra]).
  assert (m1 : machine binary64 1) by (split; [apply grid_1; auto|rewrite Rabs_right; lra]).
  assert (m2 : machine binary64 2).
  { split; [replace 2 with (powerRZ 2 1) by (simpl; ring); apply grid_w; auto; simpl; lia|rewrite Rabs_right; lra]. }
  assert (Gh : on_grid binary64 (/ 2)) by (replace (/ 2) with (powerRZ 2 (-1)) by (simpl; lra); apply grid_w; auto; simpl; lia).
  assert (M1 : machine_points binary64 (weighted_spline r)).
  { repeat (apply Forall_cons || apply Forall_nil); intros [|[|k]] Hk; try lia; cbn; assumption. }
  assert (M2 : machine_coeffs binary64 (weight_function r)) by (repeat (apply Forall_cons || apply Forall_nil); assumption).
  assert (P1 : powerRZ 2 (- 970) <= 1) by (change 1 with (powerRZ 2 0); apply two_le; lia).
  assert (P2 : 2 <= powerRZ 2 970) by (replace 2 with (powerRZ 2 1) at 1 by (simpl; ring); apply two_le; lia).
  assert (SW : safe_weights 970 r).
  { unfold safe_weights. change (- (970))%Z with (- 970)%Z. set (a := powerRZ 2 (- 970)) in *. set (b := powerRZ 2 970) in *.
    repeat (apply Forall_cons || apply Forall_nil); lra. }
  assert (U : in_unit_box [/ 2]) by (repeat constructor; lra).
  assert (V1 : value_at (weighted_spline r) [/ 2] = (3 / 4, (1, tt))) by (unfold value_at; cbn; apply f_equal2; [field|apply f_equal2; [field|reflexivity]]).
  assert (V2 : value_at (weight_function r) [/ 2] = 5 / 4) by (unfold value_at; cbn; field).
  assert (V : rvalue r [/ 2] = (3 / 5, (4 / 5, tt))).
  { unfold rvalue. rewrite V1, V2. cbn. apply f_equal2; [field|apply f_equal2; [field|reflexivity]]. }
  do 6 (split; [auto|]). split; [exact V|]. intros rnd HR.
  assert (S16 : INR (16 * (1 + list_sum (rdegrees r))) * / 2 ^ prec binary64 <= 1).
  { change (rdegrees r) with [2%nat]. cbn [list_sum fold_right Nat.add Nat.mul prec binary64]. simpl INR. assert (0 < 2 ^ 53) by (apply pow_lt; lra).
    apply (Rmult_le_reg_r (2 ^ 53)); auto. rewrite Rmult_assoc, Rinv_l by lra. replace (2 ^ 53) with (64 * 2 ^ 47) by (simpl; ring).
    assert (1 <= 2 ^ 47) by (apply pow_R1_Rle; lra). lra. }
  assert (HB : forall i k, (i < n_coeffs (rdegrees r))%nat -> (k < 2)%nat ->
     Rabs (coord 2 (nth i (control_points (weighted_spline r)) v0) k) <= 1 * nth i (control_points (weight_function r)) 0).
  { intros [|[|[|i]]] [|[|k]] Hi Hk; try (cbn in Hi; lia); cbn; rewrite Rabs_right; lra. }
  destruct (C98_evaluate binary64 rnd 2 r [/ 2] 970 1 HF HR Hr eq_refl U (Forall_cons _ Gh (Forall_nil _)) M1 M2
    (proj1 C98_formats) SW S16 ltac:(lra) HB) as (e & E & K).
  exists e. split; [exact E|].
  assert (B : forall k, (k < 2)%nat -> Rabs (coord 2 e k - coord 2 (rvalue r [/ 2]) k) <= / 2 ^ 46).
  { intros k Hk. destruct (K k Hk) as (_ & Q). eapply Rle_trans; [exact Q|].
    pose proof (c73_magnitude 2 r [/ 2] k 1 Hr eq_refl U ltac:(rewrite V2; lra) (fun i Hi => HB i k Hi Hk)) as G.
    destruct (C98_factor binary64 (list_sum (rdegrees r)) 2 S16 ltac:(lia)) as (F0 & F1).
    destruct (c89_underflow binary64 (list_sum (rdegrees r))) as (U0 & U1).
    { change (list_sum (rdegrees r)) with 2%nat in *. assert (P0 : 0 < / 2 ^ prec binary64) by (apply Rinv_0_lt_compat, pow_lt; lra).
      set (u := / 2 ^ prec binary64) in *. clearbody u. simpl INR in *. lra. }
    rewrite V2 in *. change (list_sum (rdegrees r)) with 2%nat in *.
    assert (G0 : 0 <= magnitude (weighted_spline r) [/ 2] k / (5 / 4)).
    { apply Rmult_le_pos; [|lra]. unfold magnitude. eapply Rle_trans; [apply Rabs_pos|apply bezier_abs; auto]. }
    assert (T : tiny binary64 <= / 2 ^ 53 / 16).
    { unfold tiny. apply Rle_trans with (powerRZ 2 (-57)); [apply two_le; simpl; lia|]. right. simpl. field. }
    assert (E46 : / 2 ^ 46 = 128 * / 2 ^ 53) by (simpl; field).
    simpl INR in *. change (prec binary64) with 53%nat in *. set (u := / 2 ^ 53) in *. rewrite E46. set (Qf := quotient_factor binary64 2 2) in *.
    set (mg := magnitude _ _ _ / _) in *. assert (Qf * mg <= 64 * u) by (apply Rle_trans with (Qf * 1); [apply Rmult_le_compat_l; lra|lra]).
    assert (0 < u) by (apply Rinv_0_lt_compat, pow_lt; lra). lra. }
  split; [specialize (B 0%nat ltac:(lia))|specialize (B 1%nat ltac:(lia))]; rewrite V in B; exact B.
Qed.
