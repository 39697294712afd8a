(** Property C115: rounding errors of the partial derivatives of rational splines. *)
From Coq Require Import Arith Lia List Bool ZArith Reals Lra.
From Verif Require Import Prelude Scalar Spec SpecSpline SpecReal SpecRational Coord ModelBasis ModelSpline ModelPoint ModelRational
  ModelRound ModelRoundMul ModelRoundRat ModelRoundRat3 SpecRound SpecRoundMul SpecRoundRat ProofRound ProofEval ProofRational
  ClaimsU ClaimsRoundRat ClaimsRoundRat3 PropertiesU PropertiesRoundRat.
Import ListNotations.
Local Open Scope R_scope.

(** C115: the partial derivatives of rational splines in rounded arithmetic. *)
Theorem C115_derivative : forall p rnd MAXB fuel d (r : rspline R (point R d)) k m W,
  (0 < p)%nat -> nearest p rnd -> (MAXB <= 68)%nat -> rwf r -> (k < length (rdegrees r))%nat -> (1 <= nth k (rdegrees r) 0)%nat ->
  let final := map (Nat.mul 2) (rdegrees r) in
  Forall (fun q => q < MAXB)%nat final -> (Z.of_nat (n_coeffs final) < 2 ^ 31)%Z -> (list_max final + 1 < fuel)%nat ->
  (Z.of_nat (2 * nth k (rdegrees r) 0%nat) < 2 ^ Z.of_nat p)%Z ->
  0 < m -> Forall (fun w => m <= w <= W) (control_points (weight_function r)) ->
  exists q, R_DerivativeWRT_rnd rnd MAXB fuel r (upd_list (repeat 0%nat (length (rdegrees r))) k 1%nat) = Ok q /\ rwf q /\ rdegrees q = final /\
    let g := gamma p (23 + product_roundings (rdegrees r) (rdegrees r)) in
    (g < 1 -> positive_weights q /\
     forall c U, (c < d)%nat -> (forall i, (i < n_coeffs (rdegrees r))%nat -> Rabs (coord d (nth i (control_points (weighted_spline r)) v0) c) <= U) ->
       exists df, partial (rdomain r) k (fun xs => coord d (rvalue r xs) c) df /\
       forall xs, length xs = length (rdegrees r) -> in_unit_box xs ->
         Rabs (coord d (rvalue q xs) c - df xs) <= quotient_error g (4 * INR (nth k (rdegrees r) 0%nat) * U * W / (m * m))).
Proof. exact c115_derivative. Qed.
Print Assumptions C115_derivative.
Theorem C115_derivative_scalar : forall p rnd MAXB fuel (r : rspline R (R)) k m W,
  (0 < p)%nat -> nearest p rnd -> (MAXB <= 68)%nat -> rwf r -> (k < length (rdegrees r))%nat -> (1 <= nth k (rdegrees r) 0)%nat ->
  let final := map (Nat.mul 2) (rdegrees r) in
  Forall (fun q => q < MAXB)%nat final -> (Z.of_nat (n_coeffs final) < 2 ^ 31)%Z -> (list_max final + 1 < fuel)%nat ->
  (Z.of_nat (2 * nth k (rdegrees r) 0%nat) < 2 ^ Z.of_nat p)%Z ->
  0 < m -> Forall (fun w => m <= w <= W) (control_points (weight_function r)) ->
  exists q, R_DerivativeWRT_rnd_s rnd MAXB fuel r (upd_list (repeat 0%nat (length (rdegrees r))) k 1%nat) = Ok q /\ rwf q /\ rdegrees q = final /\
    let g := gamma p (23 + product_roundings (rdegrees r) (rdegrees r)) in
    (g < 1 -> positive_weights q /\
     forall U, (forall i, (i < n_coeffs (rdegrees r))%nat -> Rabs (nth i (control_points (weighted_spline r)) 0) <= U) ->
       exists df, partial (rdomain r) k (fun xs => rvalue r xs) df /\
       forall xs, length xs = length (rdegrees r) -> in_unit_box xs ->
         Rabs (rvalue q xs - df xs) <= quotient_error g (4 * INR (nth k (rdegrees r) 0%nat) * U * W / (m * m))).
Proof. exact c115_derivative_scalar. Qed.
Print Assumptions C115_derivative_scalar.
Lemma quotient_slope (a b a' b' : R -> R) f x l : b x <> 0 -> (forall y, f y = a y / b y) ->
  (forall y, derivable_pt_lim a y (a' y)) -> (forall y, derivable_pt_lim b y (b' y)) -> derivable_pt_lim f x l ->
  l = (a' x * b x - b' x * a x) / Rsqr (b x).
Proof.
  intros H0 Hf Ha Hb Hl. apply (uniqueness_limite f x); [exact Hl|].
  assert (K := derivable_pt_lim_div a b x _ _ (Ha x) (Hb x) H0).
  intros eps He. destruct (K eps He) as (d & Hd). exists d. intros h Hh Hh'. rewrite !Hf. apply (Hd h Hh Hh').
Qed.
Lemma square_slope (c : R) y : derivable_pt_lim (fun y => 1 + c * (y * y)) y (c * (2 * y)).
Proof.
  assert (K := derivable_pt_lim_plus (fct_cte 1) (mult_real_fct c (mult_fct id id)) y _ _ (derivable_pt_lim_const 1 y)
    (derivable_pt_lim_scal _ c y _ (derivable_pt_lim_mult id id y 1 1 (derivable_pt_lim_id y) (derivable_pt_lim_id y)))).
  unfold id in K. replace (c * (2 * y)) with (0 + c * (1 * y + y * 1)) by ring. exact K.
Qed.
Lemma linear_slope (c y : R) : derivable_pt_lim (fun y => 1 + c * y) y c.
Proof.
  assert (K := derivable_pt_lim_plus (fct_cte 1) (mult_real_fct c id) y _ _ (derivable_pt_lim_const 1 y)
    (derivable_pt_lim_scal _ c y _ (derivable_pt_lim_id y))).
  replace (0 + c * 1) with c in K by ring. exact K.
Qed.
Lemma quotient_form (w n w' n' : R) : w = w' -> n = n' -> n * (1 / w) = n' / w' /\ 1 / w * n = n' / w'.
Proof. intros -> ->. unfold Rdiv. split; ring. Qed.
(** The slope of the first coordinate of the quarter circle, and of (1 + 3 t) / (1 + t), in double precision. *)
Example C115_case :
  (exists q, R_DerivativeWRT_rnd (round_to 53) 5 9 arc [1%nat] = Ok q /\ rdegrees q = [4%nat] /\ positive_weights q /\
    Rabs (coord 2 (rvalue q [1 / 2]) 0 - (- (32 / 25))) <= 3200 / 2 ^ 53) /\
  exists q, R_DerivativeWRT_rnd_s (round_to 53) 5 9 ratio [1%nat] = Ok q /\ rdegrees q = [2%nat] /\ positive_weights q /\
    Rabs (rvalue q [1 / 2] - 8 / 9) <= 6200 / 2 ^ 53.
Proof.
  assert (HR : nearest 53 (round_to 53)) by (apply nearest_round_to; lia). split.
  - assert (G : 0 <= gamma 53 33 <= 2 * INR 33 * / 2 ^ 53) by (apply C71_gamma; simpl; lra). simpl INR in G.
    destruct (C115_derivative 53 (round_to 53) 5 9 2 arc 0 1 2) as (q & E & _ & D & K); auto using arc_wf; try lia; try lra; try (cbn; lia); try (repeat constructor; cbn; lia).
    { repeat constructor; lra. }
    exists q. split; [exact E|]. split; [exact D|]. change (23 + product_roundings (rdegrees arc) (rdegrees arc))%nat with 33%nat in K. cbv zeta in K.
    destruct K as (P & K); [lra|]. split; [exact P|].
    destruct (K 0%nat 1 ltac:(lia)) as (df & HD & V).
    { intros i Hi. change (n_coeffs (rdegrees arc)) with 3%nat in Hi. destruct i as [|[|[|i]]]; try lia; unfold coord; cbn [arc weighted_spline control_points nth plist fst snd]; apply Rabs_le; lra. }
    assert (S : df [1 / 2] = - (32 / 25)).
    { assert (HX : rdomain arc [1 / 2]) by (split; [reflexivity|]; cbn; lra).
      refine (eq_trans (quotient_slope (fun y => 1 + -1 * (y * y)) (fun y => 1 + 1 * (y * y)) _ _ _ _ _ _ _ (square_slope (-1)) (square_slope 1) (HD _ HX)) _).
      - cbn [nth]. lra.
      - intros y. unfold coord. cbn. change R1 with 1. change R0 with 0. apply quotient_form; ring.
      - unfold Rsqr. cbn [nth]. field. }
    specialize (V [1 / 2] eq_refl half_box). rewrite S in V. change (nth 0 (rdegrees arc) 0%nat) with 2%nat in V. simpl INR in V.
    eapply Rle_trans; [exact V|]. apply small_error; lra.
  - assert (G : 0 <= gamma 53 32 <= 2 * INR 32 * / 2 ^ 53) by (apply C71_gamma; simpl; lra). simpl INR in G.
    destruct (C115_derivative_scalar 53 (round_to 53) 5 9 ratio 0 1 2) as (q & E & _ & D & K); auto using ratio_wf; try lia; try lra; try (cbn; lia); try (repeat constructor; cbn; lia).
    { repeat constructor; lra. }
    exists q. split; [exact E|]. split; [exact D|]. change (23 + product_roundings (rdegrees ratio) (rdegrees ratio))%nat with 32%nat in K. cbv zeta in K.
    destruct K as (P & K); [lra|]. split; [exact P|].
    destruct (K 4) as (df & HD & V).
    { intros i Hi. change (n_coeffs (rdegrees ratio)) with 2%nat in Hi. destruct i as [|[|i]]; try lia; cbn [ratio weighted_spline control_points nth]; apply Rabs_le; lra. }
    specialize (V [1 / 2] eq_refl half_box). change (nth 0 (rdegrees ratio) 0%nat) with 1%nat in V. simpl INR in V.
    assert (HX : rdomain ratio [1 / 2]) by (split; [reflexivity|]; cbn; lra).
    assert (S : df [1 / 2] = 8 / 9).
    { refine (eq_trans (quotient_slope (fun y => 1 + 3 * y) (fun y => 1 + 1 * y) (fun _ => 3) (fun _ => 1) _ _ _ _ _ (linear_slope 3) (linear_slope 1) (HD _ HX)) _).
      - cbn [nth]. lra.
      - intros y. unfold coord. cbn. change R1 with 1. change R0 with 0. apply quotient_form; ring.
      - unfold Rsqr. cbn [nth]. field. }
    rewrite S in V. eapply Rle_trans; [exact V|]. apply small_error; lra.
Qed.
