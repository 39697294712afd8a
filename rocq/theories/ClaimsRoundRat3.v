(** C115: rounding errors of the partial derivatives of rational splines. *)
From Coq Require Import Arith Lia List ZArith NArith Bool Reals Lra Psatz.
From Verif Require Import Prelude Scalar Spec SpecSpline SpecReal SpecRational Sums Order Coord ModelBasis ModelSpline ModelPoint ModelRational
  ModelRound ModelRoundMul SpecRound SpecRoundMul ProofIndex ProofBasis ProofEval ProofElevate ProofArith ProofRational ProofRound ProofRoundEval ProofRoundOps ProofRoundMul
  ClaimsB ClaimsE ClaimsU ClaimsX ClaimsI ClaimsRoundOps ClaimsRoundMul ModelRoundRat ModelRoundRat3 SpecRoundRat ProofRoundRat ProofRoundRat2 ProofRoundRat3 ClaimsRoundRat ProofRoundRat6.
Import ListNotations.
Local Open Scope R_scope.

Lemma between_nth {V} (r : rspline R V) m W : rwf r -> Forall (fun w => m <= w <= W) (control_points (weight_function r)) ->
  forall i, (i < n_coeffs (rdegrees r))%nat -> m <= nth i (control_points (weight_function r)) 0 <= W.
Proof.
  intros (_ & (_ & _ & _ & L) & D) H i Hi. rewrite Forall_forall in H. apply H, nth_In. rewrite L, D. exact Hi.
Qed.
Lemma fuel_two (l : list nat) k fuel : (k < length l)%nat -> (1 <= nth k l 0)%nat -> (list_max (twice l) + 1 < fuel)%nat -> (2 <= fuel)%nat.
Proof.
  intros Hk H1 Hf. assert (K : (2 * nth k l 0 <= list_max (twice l))%nat); [|lia].
  rewrite <- nth_twice. assert (A := proj1 (list_max_le (twice l) (list_max (twice l))) (le_n _)). rewrite Forall_forall in A. apply A, nth_In.
  unfold twice. rewrite map_length. exact Hk.
Qed.
Lemma exact_partial {V} {ov : VOps R V} {M : VMod R V} MAXB fuel (r D : rspline R V) k : (MAXB <= 68)%nat -> rwf r -> (k < length (rdegrees r))%nat -> (1 <= nth k (rdegrees r) 0)%nat ->
  Forall (fun q => q < MAXB)%nat (twice (rdegrees r)) -> (Z.of_nat (n_coeffs (twice (rdegrees r))) < 2 ^ 31)%Z -> (list_max (twice (rdegrees r)) + 1 < fuel)%nat ->
  R_derivative_step MAXB fuel k r = Ok D ->
  forall phi, linear_form phi -> partial (rdomain r) k (fun xs => phi (rvalue r xs)) (fun xs => phi (rvalue D xs)).
Proof.
  intros HB Hr Hk H1 HM Hsz Hf E phi HP.
  destruct (R_derivative_step_ok (T := R) MAXB HB fuel r k Hr Hk H1 HM Hsz Hf) as (D' & E' & WD & DD & HV). rewrite E in E'. injection E' as <-.
  apply (step_partial r D k Hr Hk); auto. rewrite DD. unfold twice. apply map_length.
Qed.
Lemma c115_derivative : forall p rnd MAXB fuel d (r : rspline R (point R d)) k m W,
  (0 < p)%nat -> nearest p rnd -> (MAXB <= 68)%nat -> rwf r -> (k < length (rdegrees r))%nat -> (1 <= nth k (rdegrees r) 0)%nat ->
  let final := map (Nat.mul 2) (rdegrees r) in
  Forall (fun q => q < MAXB)%nat final -> (Z.of_nat (n_coeffs final) < 2 ^ 31)%Z -> (list_max final + 1 < fuel)%nat ->
  (Z.of_nat (2 * nth k (rdegrees r) 0%nat) < 2 ^ Z.of_nat p)%Z ->
  0 < m -> Forall (fun w => m <= w <= W) (control_points (weight_function r)) ->
  exists q, R_DerivativeWRT_rnd rnd MAXB fuel r (upd_list (repeat 0%nat (length (rdegrees r))) k 1%nat) = Ok q /\ rwf q /\ rdegrees q = final /\
    let g := gamma p (23 + product_roundings (rdegrees r) (rdegrees r)) in
    (g < 1 -> positive_weights q /\
     forall c U, (c < d)%nat -> (forall i, (i < n_coeffs (rdegrees r))%nat -> Rabs (coord d (nth i (control_points (weighted_spline r)) v0) c) <= U) ->
       exists df, partial (rdomain r) k (fun xs => coord d (rvalue r xs) c) df /\
       forall xs, length xs = length (rdegrees r) -> in_unit_box xs ->
         Rabs (coord d (rvalue q xs) c - df xs) <= quotient_error g (4 * INR (nth k (rdegrees r) 0%nat) * U * W / (m * m))).
Proof.
  intros p rnd MAXB fuel d r k m W Hp HR HB Hr Hk H1 final HM Hsz Hf Hp2 Hm HW.
  destruct (g_derivative p rnd Hp HR (ovr := Vr rnd d) (ov := Vp d) eq_refl MAXB HB fuel r k m W Hr Hk H1 HM Hsz (fuel_two _ k fuel Hk H1 Hf) Hp2 Hm (between_nth r m W Hr HW))
    as (q & D & E & ED & Wq & Dq & K).
  exists q. split; [unfold R_DerivativeWRT_rnd; fold (unit_order (length (rdegrees r)) k); rewrite derivative_unit by auto; exact E|].
  do 2 (split; [assumption|]). intros g HG. destruct (K HG) as (P & K2). split; [apply pos_to; auto|]. intros c U Hc HU.
  exists (fun xs => coord d (rvalue D xs) c). split.
  - apply (exact_partial MAXB fuel r D k HB Hr Hk H1 HM Hsz Hf ED (fun q => coord d q c)). split; apply (coord_homs rnd d c Hc).
  - intros xs HX HI. apply (K2 _ U (coord_homs rnd d c Hc) HU xs HX HI).
Qed.
Lemma c115_derivative_scalar : forall p rnd MAXB fuel (r : rspline R (R)) k m W,
  (0 < p)%nat -> nearest p rnd -> (MAXB <= 68)%nat -> rwf r -> (k < length (rdegrees r))%nat -> (1 <= nth k (rdegrees r) 0)%nat ->
  let final := map (Nat.mul 2) (rdegrees r) in
  Forall (fun q => q < MAXB)%nat final -> (Z.of_nat (n_coeffs final) < 2 ^ 31)%Z -> (list_max final + 1 < fuel)%nat ->
  (Z.of_nat (2 * nth k (rdegrees r) 0%nat) < 2 ^ Z.of_nat p)%Z ->
  0 < m -> Forall (fun w => m <= w <= W) (control_points (weight_function r)) ->
  exists q, R_DerivativeWRT_rnd_s rnd MAXB fuel r (upd_list (repeat 0%nat (length (rdegrees r))) k 1%nat) = Ok q /\ rwf q /\ rdegrees q = final /\
    let g := gamma p (23 + product_roundings (rdegrees r) (rdegrees r)) in
    (g < 1 -> positive_weights q /\
     forall U, (forall i, (i < n_coeffs (rdegrees r))%nat -> Rabs (nth i (control_points (weighted_spline r)) 0) <= U) ->
       exists df, partial (rdomain r) k (fun xs => rvalue r xs) df /\
       forall xs, length xs = length (rdegrees r) -> in_unit_box xs ->
         Rabs (rvalue q xs - df xs) <= quotient_error g (4 * INR (nth k (rdegrees r) 0%nat) * U * W / (m * m))).
Proof.
  intros p rnd MAXB fuel r k m W Hp HR HB Hr Hk H1 final HM Hsz Hf Hp2 Hm HW.
  destruct (g_derivative p rnd Hp HR (ovr := Vsc rnd) (ov := VR) eq_refl MAXB HB fuel r k m W Hr Hk H1 HM Hsz (fuel_two _ k fuel Hk H1 Hf) Hp2 Hm (between_nth r m W Hr HW))
    as (q & D & E & ED & Wq & Dq & K).
  exists q. split; [unfold R_DerivativeWRT_rnd_s; fold (unit_order (length (rdegrees r)) k); rewrite derivative_unit by auto; exact E|].
  do 2 (split; [assumption|]). intros g HG. destruct (K HG) as (P & K2). split; [apply pos_to; auto|]. intros U HU.
  exists (fun xs => rvalue D xs). split.
  - apply (exact_partial MAXB fuel r D k HB Hr Hk H1 HM Hsz Hf ED (fun q => q)). split; intros; reflexivity.
  - intros xs HX HI. apply (K2 (fun x => x) U); auto. repeat split; intros; reflexivity.
Qed.
