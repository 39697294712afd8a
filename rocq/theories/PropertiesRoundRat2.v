(** Property C114: rounding errors of compositions with a rational inner spline. *)
From Coq Require Import Arith Lia List Bool ZArith Reals Lra.
From Verif Require Import Prelude Scalar Spec SpecSpline SpecRational Coord ModelBasis ModelSpline ModelPoint ModelRational
  ModelRound ModelRoundMul ModelRoundRat ModelRoundRat2 SpecRound SpecRoundMul SpecRoundRat SpecUnit ProofRound ProofEval ProofSplit ProofArith ProofRational
  ClaimsU ClaimsRoundRat ClaimsRoundRat2 PropertiesU PropertiesRoundRat.
Import ListNotations.
Local Open Scope R_scope.

(** C114: composition with a rational inner spline in rounded arithmetic. *)
Theorem C114_polynomial : forall p rnd MAXB fuel m (outer : spline (point R m)) (inner : rspline R (point R (length (degrees outer)))),
  (0 < p)%nat -> nearest p rnd -> (MAXB <= 68)%nat -> wf outer -> rwf inner -> in_cube_weighted inner ->
  (Z.of_nat (n_coeffs (rdegrees inner)) < 2 ^ 31)%Z -> (list_max (rdegrees inner) + 1 < fuel)%nat ->
  Forall (fun q => list_sum (degrees outer) * q < MAXB)%nat (rdegrees inner) ->
  Forall (fun q => q < MAXB)%nat (degrees outer) ->
  exists c, Compose_PR_rnd rnd MAXB fuel outer inner = Ok c /\ rwf c /\ rdegrees c = map (Nat.mul (list_sum (degrees outer))) (rdegrees inner) /\
    let g := gamma p (compose_roundings (degrees outer) (rdegrees inner)) in
    (g < 1 -> positive_weights c /\
     forall k B, (k < m)%nat -> (forall i, (i < n_coeffs (degrees outer))%nat -> Rabs (coord m (nth i (control_points outer) v0) k) <= B) ->
       rat_bound c k (quotient_growth g B) /\
       forall xs, length xs = length (rdegrees inner) -> in_unit_box xs ->
         Rabs (coord m (rvalue c xs) k - coord m (value_at outer (plist _ (rvalue inner xs))) k) <= quotient_error g B).
Proof. exact c114_polynomial. Qed.
Print Assumptions C114_polynomial.
Theorem C114_polynomial_scalar : forall p rnd MAXB fuel  (outer : spline R) (inner : rspline R (point R (length (degrees outer)))),
  (0 < p)%nat -> nearest p rnd -> (MAXB <= 68)%nat -> wf outer -> rwf inner -> in_cube_weighted inner ->
  (Z.of_nat (n_coeffs (rdegrees inner)) < 2 ^ 31)%Z -> (list_max (rdegrees inner) + 1 < fuel)%nat ->
  Forall (fun q => list_sum (degrees outer) * q < MAXB)%nat (rdegrees inner) ->
  Forall (fun q => q < MAXB)%nat (degrees outer) ->
  exists c, Compose_PR_rnd_s rnd MAXB fuel outer inner = Ok c /\ rwf c /\ rdegrees c = map (Nat.mul (list_sum (degrees outer))) (rdegrees inner) /\
    let g := gamma p (compose_roundings (degrees outer) (rdegrees inner)) in
    (g < 1 -> positive_weights c /\
     forall B, (forall i, (i < n_coeffs (degrees outer))%nat -> Rabs (nth i (control_points outer) 0) <= B) ->
       rat_bound_s c (quotient_growth g B) /\
       forall xs, length xs = length (rdegrees inner) -> in_unit_box xs ->
         Rabs (rvalue c xs - value_at outer (plist _ (rvalue inner xs))) <= quotient_error g B).
Proof. exact c114_polynomial_scalar. Qed.
Print Assumptions C114_polynomial_scalar.
Theorem C114_rational : forall p rnd MAXB fuel m (outer : rspline R (point R m)) (inner : rspline R (point R (length (rdegrees outer)))),
  (0 < p)%nat -> nearest p rnd -> (MAXB <= 68)%nat -> rwf outer -> rwf inner -> in_cube_weighted inner ->
  (Z.of_nat (n_coeffs (rdegrees inner)) < 2 ^ 31)%Z -> (list_max (rdegrees inner) + 1 < fuel)%nat ->
  Forall (fun q => list_sum (rdegrees outer) * q < MAXB)%nat (rdegrees inner) ->
  Forall (fun q => q < MAXB)%nat (rdegrees outer) -> positive_weights outer ->
  exists c, Compose_RR_rnd rnd MAXB fuel outer inner = Ok c /\ rwf c /\ rdegrees c = map (Nat.mul (list_sum (rdegrees outer))) (rdegrees inner) /\
    let g := gamma p (compose_roundings (rdegrees outer) (rdegrees inner)) in
    (g < 1 -> positive_weights c /\
     forall k B, (k < m)%nat -> rat_bound outer k B ->
       rat_bound c k (quotient_growth g B) /\
       forall xs, length xs = length (rdegrees inner) -> in_unit_box xs ->
         Rabs (coord m (rvalue c xs) k - coord m (rvalue outer (plist _ (rvalue inner xs))) k) <= quotient_error g B).
Proof. exact c114_rational. Qed.
Print Assumptions C114_rational.
Theorem C114_rational_scalar : forall p rnd MAXB fuel  (outer : rspline R R) (inner : rspline R (point R (length (rdegrees outer)))),
  (0 < p)%nat -> nearest p rnd -> (MAXB <= 68)%nat -> rwf outer -> rwf inner -> in_cube_weighted inner ->
  (Z.of_nat (n_coeffs (rdegrees inner)) < 2 ^ 31)%Z -> (list_max (rdegrees inner) + 1 < fuel)%nat ->
  Forall (fun q => list_sum (rdegrees outer) * q < MAXB)%nat (rdegrees inner) ->
  Forall (fun q => q < MAXB)%nat (rdegrees outer) -> positive_weights outer ->
  exists c, Compose_RR_rnd_s rnd MAXB fuel outer inner = Ok c /\ rwf c /\ rdegrees c = map (Nat.mul (list_sum (rdegrees outer))) (rdegrees inner) /\
    let g := gamma p (compose_roundings (rdegrees outer) (rdegrees inner)) in
    (g < 1 -> positive_weights c /\
     forall B, rat_bound_s outer B ->
       rat_bound_s c (quotient_growth g B) /\
       forall xs, length xs = length (rdegrees inner) -> in_unit_box xs ->
         Rabs (rvalue c xs - rvalue outer (plist _ (rvalue inner xs))) <= quotient_error g B).
Proof. exact c114_rational_scalar. Qed.
Print Assumptions C114_rational_scalar.
Theorem C114_sensitivity : forall p rnd MAXB fuel V (outer : spline V) (inner : rspline R (point R (length (degrees outer)))),
  (0 < p)%nat -> nearest p rnd -> (MAXB <= 68)%nat -> wf outer -> rwf inner -> in_cube_weighted inner ->
  (Z.of_nat (n_coeffs (rdegrees inner)) < 2 ^ 31)%Z -> (list_max (rdegrees inner) + 1 < fuel)%nat ->
  Forall (fun q => list_sum (degrees outer) * q < MAXB)%nat (rdegrees inner) ->
  Forall (fun q => q < MAXB)%nat (degrees outer) ->
  exists ts ts0, ComposeSensitivity_PR_rnd rnd MAXB fuel outer inner = Ok ts /\ ComposeSensitivity_PR MAXB fuel outer inner = Ok ts0 /\
    length ts = n_coeffs (degrees outer) /\ length ts0 = n_coeffs (degrees outer) /\
    let g := gamma p (compose_roundings (degrees outer) (rdegrees inner)) in
    forall i, (i < n_coeffs (degrees outer))%nat -> exists t t0, nth_error ts i = Some t /\ nth_error ts0 i = Some t0 /\ rwf t /\
      rdegrees t = map (Nat.mul (list_sum (degrees outer))) (rdegrees inner) /\ rdegrees t0 = rdegrees t /\
      (forall j, 0 <= nth j (control_points (weighted_spline t)) 0) /\
      (g < 1 -> positive_weights t /\ rat_bound_s t (quotient_growth g 1) /\
       forall xs, length xs = length (rdegrees inner) -> in_unit_box xs -> Rabs (rvalue t xs - rvalue t0 xs) <= quotient_error g 1).
Proof. exact c114_sensitivity. Qed.
Print Assumptions C114_sensitivity.
Theorem C114_rational_sensitivity : forall p rnd MAXB fuel V (outer : rspline R V) (inner : rspline R (point R (length (rdegrees outer)))),
  (0 < p)%nat -> nearest p rnd -> (MAXB <= 68)%nat -> rwf outer -> rwf inner -> in_cube_weighted inner ->
  (Z.of_nat (n_coeffs (rdegrees inner)) < 2 ^ 31)%Z -> (list_max (rdegrees inner) + 1 < fuel)%nat ->
  Forall (fun q => list_sum (rdegrees outer) * q < MAXB)%nat (rdegrees inner) ->
  Forall (fun q => q < MAXB)%nat (rdegrees outer) -> positive_weights outer ->
  exists ts ts0, ComposeSensitivity_RR_rnd rnd MAXB fuel outer inner = Ok ts /\ ComposeSensitivity_RR MAXB fuel outer inner = Ok ts0 /\
    length ts = n_coeffs (rdegrees outer) /\ length ts0 = n_coeffs (rdegrees outer) /\
    let g := gamma p (compose_roundings (rdegrees outer) (rdegrees inner)) in
    forall i, (i < n_coeffs (rdegrees outer))%nat -> exists t t0, nth_error ts i = Some t /\ nth_error ts0 i = Some t0 /\ rwf t /\
      rdegrees t = map (Nat.mul (list_sum (rdegrees outer))) (rdegrees inner) /\ rdegrees t0 = rdegrees t /\
      (forall j, 0 <= nth j (control_points (weighted_spline t)) 0) /\
      (g < 1 -> positive_weights t /\ rat_bound_s t (quotient_growth g 1) /\
       forall xs, length xs = length (rdegrees inner) -> in_unit_box xs -> Rabs (rvalue t xs - rvalue t0 xs) <= quotient_error g 1).
Proof. exact c114_rational_sensitivity. Qed.
Print Assumptions C114_rational_sensitivity.
Theorem C114_polynomial_inner_sensitivity : forall p rnd MAXB V (outer : rspline R V) (inner : spline (point R (length (rdegrees outer)))),
  (0 < p)%nat -> nearest p rnd -> (MAXB <= 68)%nat -> rwf outer -> wf inner ->
  (forall q k, In q (control_points inner) -> (k < length (rdegrees outer))%nat -> 0 <= coord _ q k <= 1) ->
  Forall (fun q => list_sum (rdegrees outer) * q < MAXB)%nat (degrees inner) ->
  Forall (fun q => q < MAXB)%nat (rdegrees outer) -> positive_weights outer ->
  exists ts ts0, ComposeSensitivity_RP_rnd rnd MAXB outer inner = Ok ts /\ ComposeSensitivity_RP MAXB outer inner = Ok ts0 /\
    length ts = n_coeffs (rdegrees outer) /\ length ts0 = n_coeffs (rdegrees outer) /\
    let g := gamma p (compose_roundings (rdegrees outer) (degrees inner)) in
    forall i, (i < n_coeffs (rdegrees outer))%nat -> exists t t0, nth_error ts i = Some t /\ nth_error ts0 i = Some t0 /\ rwf t /\
      rdegrees t = map (Nat.mul (list_sum (rdegrees outer))) (degrees inner) /\ rdegrees t0 = rdegrees t /\
      (forall j, 0 <= nth j (control_points (weighted_spline t)) 0) /\
      (g < 1 -> positive_weights t /\ rat_bound_s t (quotient_growth g 1) /\
       forall xs, length xs = length (degrees inner) -> in_unit_box xs -> Rabs (rvalue t xs - rvalue t0 xs) <= quotient_error g 1).
Proof. exact c114_polynomial_inner_sensitivity. Qed.
Print Assumptions C114_polynomial_inner_sensitivity.
Theorem C114_outside : forall rnd MAXB fuel m d (outer : spline (point R m)) (inner : rspline R (point R d)), rwf inner ->
  (forall i, (i < n_coeffs (rdegrees inner))%nat -> nth i (control_points (weight_function inner)) 0 <> 0) ->
  ~ (forall i k, (i < n_coeffs (rdegrees inner))%nat -> (k < d)%nat ->
    0 <= rnd (rnd (1 / nth i (control_points (weight_function inner)) 0) * coord d (nth i (control_points (weighted_spline inner)) v0) k) <= 1) ->
  Compose_PR_rnd rnd MAXB fuel outer inner = Throw /\ ComposeSensitivity_PR_rnd rnd MAXB fuel outer inner = Throw.
Proof. exact c114_outside. Qed.
Print Assumptions C114_outside.
(** The inner spline 2 t / (1 + t) in the parabola x^2, in the curve (x^2, 2 x - 1) and in the quarter circle, in double precision. *)
Example C114_case :
  let inner : rspline R (point R 1) := mkR (mkSpline [1%nat] 2 [1%nat] [(0, tt); (2, tt)]) (mkSpline [1%nat] 2 [1%nat] [1; 2]) in
  let square : spline R := mkSpline [2%nat] 3 [1%nat] [0; 0; 1] in
  let curve : spline (point R 2) := mkSpline [2%nat] 3 [1%nat] [(0, (-1, tt)); (0, (0, tt)); (1, (1, tt))] in
  rwf inner /\ in_cube_weighted inner /\
  (exists q, Compose_PR_rnd_s (round_to 53) 5 9 square inner = Ok q /\ rdegrees q = [2%nat] /\ positive_weights q /\ Rabs (rvalue q [1 / 2] - 4 / 9) <= 300 / 2 ^ 53) /\
  (exists q, Compose_PR_rnd (round_to 53) 5 9 curve inner = Ok q /\ rdegrees q = [2%nat] /\ Rabs (coord 2 (rvalue q [1 / 2]) 1 - 1 / 3) <= 300 / 2 ^ 53) /\
  (exists q, Compose_RR_rnd (round_to 53) 5 9 arc inner = Ok q /\ rdegrees q = [2%nat] /\ Rabs (coord 2 (rvalue q [1 / 2]) 0 - 5 / 13) <= 300 / 2 ^ 53) /\
  (exists q, Compose_RR_rnd_s (round_to 53) 5 9 ratio inner = Ok q /\ rdegrees q = [1%nat] /\ Rabs (rvalue q [1 / 2] - 9 / 5) <= 600 / 2 ^ 53) /\
  exists ts t, ComposeSensitivity_PR_rnd (round_to 53) 5 9 square inner = Ok ts /\ nth_error ts 2 = Some t /\ rdegrees t = [2%nat] /\ positive_weights t /\
    rat_bound_s t (quotient_growth (gamma 53 47) 1) /\
  exists ts t, ComposeSensitivity_RR_rnd (round_to 53) 5 9 arc inner = Ok ts /\ nth_error ts 0 = Some t /\ rdegrees t = [2%nat] /\ positive_weights t /\
  exists ts t, ComposeSensitivity_RP_rnd (round_to 53) 5 arc (mkSpline [1%nat] 2 [1%nat] [(0, tt); (1 / 2, tt)] : spline (point R 1)) = Ok ts /\ nth_error ts 0 = Some t /\ rdegrees t = [2%nat] /\ positive_weights t.
Proof.
  intros inner square curve. assert (HR : nearest 53 (round_to 53)) by (apply nearest_round_to; lia).
  assert (Hi : rwf inner) by (repeat split; discriminate).
  assert (HC : in_cube_weighted inner).
  { intros i Hx. change (n_coeffs (rdegrees inner)) with 2%nat in Hx. destruct i as [|[|i]]; [| |lia]; cbn [inner weight_function weighted_spline control_points nth]; (split; [lra|]; intros k Hk; replace k with 0%nat by lia; unfold coord; cbn [plist fst nth]; lra). }
  assert (G : 0 <= gamma 53 47 <= 2 * INR 47 * / 2 ^ 53) by (apply C71_gamma; simpl; lra). simpl INR in G.
  assert (G2 : 0 <= gamma 53 32 <= 2 * INR 32 * / 2 ^ 53) by (apply C71_gamma; simpl; lra). simpl INR in G2.
  assert (Ws : wf square) by (repeat split; discriminate). assert (Wc : wf curve) by (repeat split; discriminate).
  split; [exact Hi|]. split; [exact HC|]. split; [|split; [|split; [|split]]].
  - destruct (C114_polynomial_scalar 53 (round_to 53) 5 9 square inner) as (q & E & _ & D & K); auto; try lia; try (repeat constructor; cbn; lia).
    exists q. split; [exact E|]. split; [exact D|]. change (compose_roundings (degrees square) (rdegrees inner)) with 47%nat in K. cbv zeta in K.
    destruct K as (P & K); [lra|]. split; [exact P|].
    destruct (K 1) as (_ & V). { intros i Hx. change (n_coeffs (degrees square)) with 3%nat in Hx. destruct i as [|[|[|i]]]; try lia; cbn; rewrite Rabs_right; lra. }
    specialize (V [1 / 2] eq_refl half_box). eapply Rle_trans; [|eapply Rle_trans; [exact V|apply small_error; lra]]. right. f_equal. f_equal. cbn. field.
  - destruct (C114_polynomial 53 (round_to 53) 5 9 2 curve inner) as (q & E & _ & D & K); auto; try lia; try (repeat constructor; cbn; lia).
    exists q. split; [exact E|]. split; [exact D|]. change (compose_roundings (degrees curve) (rdegrees inner)) with 47%nat in K. cbv zeta in K.
    destruct K as (P & K); [lra|].
    destruct (K 1%nat 1) as (_ & V); [lia| |]. { intros i Hx. change (n_coeffs (degrees curve)) with 3%nat in Hx. destruct i as [|[|[|i]]]; try lia; unfold coord; cbn [curve control_points nth plist fst snd]; apply Rabs_le; lra. }
    specialize (V [1 / 2] eq_refl half_box). eapply Rle_trans; [|eapply Rle_trans; [exact V|apply small_error; lra]]. right. f_equal. f_equal. unfold coord. cbn. field.
  - destruct (C114_rational 53 (round_to 53) 5 9 2 arc inner) as (q & E & _ & D & K); auto using arc_wf, arc_weights; try lia; try (repeat constructor; cbn; lia).
    exists q. split; [exact E|]. split; [exact D|]. change (compose_roundings (rdegrees arc) (rdegrees inner)) with 47%nat in K. cbv zeta in K.
    destruct K as (_ & K); [lra|]. destruct (K 0%nat 1 ltac:(lia) (arc_bound 0 ltac:(lia))) as (_ & V). specialize (V [1 / 2] eq_refl half_box).
    eapply Rle_trans; [|eapply Rle_trans; [exact V|apply small_error; lra]]. right. f_equal. f_equal. unfold coord. cbn. field.
  - destruct (C114_rational_scalar 53 (round_to 53) 5 9 ratio inner) as (q & E & _ & D & K); auto using ratio_wf, ratio_weights; try lia; try (repeat constructor; cbn; lia).
    exists q. split; [exact E|]. split; [exact D|]. change (compose_roundings (rdegrees ratio) (rdegrees inner)) with 32%nat in K. cbv zeta in K.
    destruct K as (_ & K); [lra|]. destruct (K 2 ratio_bound) as (_ & V). specialize (V [1 / 2] eq_refl half_box).
    eapply Rle_trans; [|eapply Rle_trans; [exact V|apply small_error; lra]]. right. f_equal. f_equal. cbn. field.
  - destruct (C114_sensitivity 53 (round_to 53) 5 9 R square inner) as (ts & ts0 & E & _ & _ & _ & K); auto; try lia; try (repeat constructor; cbn; lia).
    destruct (K 2%nat ltac:(cbn; lia)) as (t & t0 & N & _ & _ & D & _ & _ & Q). exists ts, t. do 3 (split; [assumption|]).
    change (compose_roundings (degrees square) (rdegrees inner)) with 47%nat in Q. destruct Q as (Q1 & Q2 & _); [lra|]. split; [exact Q1|]. split; [exact Q2|]. clear E K N D Q1 Q2 ts ts0 t t0.
    destruct (C114_rational_sensitivity 53 (round_to 53) 5 9 _ arc inner) as (ts & ts0 & E & _ & _ & _ & K); auto using arc_wf, arc_weights; try lia; try (repeat constructor; cbn; lia).
    destruct (K 0%nat ltac:(cbn; lia)) as (t & t0 & N & _ & _ & D & _ & _ & Q). exists ts, t. do 3 (split; [assumption|]).
    change (compose_roundings (rdegrees arc) (rdegrees inner)) with 47%nat in Q. destruct Q as (Q1 & _); [lra|]. split; [exact Q1|]. clear E K N D Q1 ts ts0 t t0.
    set (half := mkSpline [1%nat] 2 [1%nat] [(0, tt); (1 / 2, tt)] : spline (point R 1)).
    assert (HH : forall q k, In q (control_points half) -> (k < 1)%nat -> 0 <= coord 1 q k <= 1).
    { intros q k Hq Hk. replace k with 0%nat by lia. destruct Hq as [<-|[<-|[]]]; unfold coord; cbn [plist fst nth]; lra. }
    destruct (C114_polynomial_inner_sensitivity 53 (round_to 53) 5 _ arc half) as (ts & ts0 & E & _ & _ & _ & K); auto using arc_wf, arc_weights; try lia; try (repeat split; discriminate); try (repeat constructor; cbn; lia).
    destruct (K 0%nat ltac:(cbn; lia)) as (t & t0 & N & _ & _ & D & _ & _ & Q). exists ts, t. do 3 (split; [assumption|]).
    change (compose_roundings (rdegrees arc) (degrees half)) with 47%nat in Q. destruct Q as (Q1 & _); [lra|]. exact Q1.
Qed.
