(** C114: rounding errors of compositions with a rational inner spline. *)
From Coq Require Import Arith Lia List ZArith NArith Bool Reals Lra Psatz.
From Verif Require Import Prelude Scalar Spec SpecSpline SpecRational Sums Order Coord ModelBasis ModelSpline ModelPoint ModelRational
  ModelRound ModelRoundMul SpecRound SpecRoundMul ProofArith ProofRational ProofRoundOps ProofRoundMul ProofRoundCompose
  ClaimsB ClaimsE ClaimsU ClaimsX ClaimsRoundOps ClaimsRoundMul ModelRoundRat SpecRoundRat ProofRoundRat ProofRoundRat2 ProofRoundRat3 ClaimsRoundRat SpecUnit ModelUnit ClaimsUnit ModelRoundRat2 ProofRoundRat4 ProofRoundRat5.
Import ListNotations.
Local Open Scope R_scope.

Lemma c114_polynomial : forall p rnd MAXB fuel m (outer : spline (point R m)) (inner : rspline R (point R (length (degrees outer)))),
  (0 < p)%nat -> nearest p rnd -> (MAXB <= 68)%nat -> wf outer -> rwf inner -> in_cube_weighted inner ->
  (Z.of_nat (n_coeffs (rdegrees inner)) < 2 ^ 31)%Z -> (list_max (rdegrees inner) + 1 < fuel)%nat ->
  Forall (fun q => list_sum (degrees outer) * q < MAXB)%nat (rdegrees inner) ->
  Forall (fun q => q < MAXB)%nat (degrees outer) ->
  exists c, Compose_PR_rnd rnd MAXB fuel outer inner = Ok c /\ rwf c /\ rdegrees c = map (Nat.mul (list_sum (degrees outer))) (rdegrees inner) /\
    let g := gamma p (compose_roundings (degrees outer) (rdegrees inner)) in
    (g < 1 -> positive_weights c /\
     forall k B, (k < m)%nat -> (forall i, (i < n_coeffs (degrees outer))%nat -> Rabs (coord m (nth i (control_points outer) v0) k) <= B) ->
       rat_bound c k (quotient_growth g B) /\
       forall xs, length xs = length (rdegrees inner) -> in_unit_box xs ->
         Rabs (coord m (rvalue c xs) k - coord m (value_at outer (plist _ (rvalue inner xs))) k) <= quotient_error g B).
Proof.
  intros p rnd MAXB fuel m outer inner Hp HR HM W Wi HC Hsz Hfuel HF HMd.
  destruct (g_comp_pr p rnd Hp HR MAXB HM _ inner Wi HC Hsz fuel Hfuel _ (proj1 W) eq_refl HF HMd (ovr := Vr rnd m) (ov := Vp m) eq_refl outer W eq_refl) as (q & E & We & De & K).
  exists q. do 3 (split; [assumption|]). intros g HG. destruct (K HG) as (Pe & K2).
  split; [apply pos_to; auto|]. intros k B Hc HBd.
  destruct (K2 _ B (coord_hom rnd m k Hc) HBd) as (A1 & A2).
  split; [apply bnd_of; auto|]. exact A2.
Qed.
Lemma c114_polynomial_scalar : forall p rnd MAXB fuel  (outer : spline R) (inner : rspline R (point R (length (degrees outer)))),
  (0 < p)%nat -> nearest p rnd -> (MAXB <= 68)%nat -> wf outer -> rwf inner -> in_cube_weighted inner ->
  (Z.of_nat (n_coeffs (rdegrees inner)) < 2 ^ 31)%Z -> (list_max (rdegrees inner) + 1 < fuel)%nat ->
  Forall (fun q => list_sum (degrees outer) * q < MAXB)%nat (rdegrees inner) ->
  Forall (fun q => q < MAXB)%nat (degrees outer) ->
  exists c, Compose_PR_rnd_s rnd MAXB fuel outer inner = Ok c /\ rwf c /\ rdegrees c = map (Nat.mul (list_sum (degrees outer))) (rdegrees inner) /\
    let g := gamma p (compose_roundings (degrees outer) (rdegrees inner)) in
    (g < 1 -> positive_weights c /\
     forall B, (forall i, (i < n_coeffs (degrees outer))%nat -> Rabs (nth i (control_points outer) 0) <= B) ->
       rat_bound_s c (quotient_growth g B) /\
       forall xs, length xs = length (rdegrees inner) -> in_unit_box xs ->
         Rabs (rvalue c xs - value_at outer (plist _ (rvalue inner xs))) <= quotient_error g B).
Proof.
  intros p rnd MAXB fuel outer inner Hp HR HM W Wi HC Hsz Hfuel HF HMd.
  destruct (g_comp_pr p rnd Hp HR MAXB HM _ inner Wi HC Hsz fuel Hfuel _ (proj1 W) eq_refl HF HMd (ovr := Vsc rnd) (ov := VR) eq_refl outer W eq_refl) as (q & E & We & De & K).
  exists q. do 3 (split; [assumption|]). intros g HG. destruct (K HG) as (Pe & K2).
  split; [apply pos_to; auto|]. intros B HBd.
  destruct (K2 _ B (id_hom rnd) HBd) as (A1 & A2).
  split; [apply bnd_s; auto|]. exact A2.
Qed.
Lemma c114_rational : forall p rnd MAXB fuel m (outer : rspline R (point R m)) (inner : rspline R (point R (length (rdegrees outer)))),
  (0 < p)%nat -> nearest p rnd -> (MAXB <= 68)%nat -> rwf outer -> rwf inner -> in_cube_weighted inner ->
  (Z.of_nat (n_coeffs (rdegrees inner)) < 2 ^ 31)%Z -> (list_max (rdegrees inner) + 1 < fuel)%nat ->
  Forall (fun q => list_sum (rdegrees outer) * q < MAXB)%nat (rdegrees inner) ->
  Forall (fun q => q < MAXB)%nat (rdegrees outer) -> positive_weights outer ->
  exists c, Compose_RR_rnd rnd MAXB fuel outer inner = Ok c /\ rwf c /\ rdegrees c = map (Nat.mul (list_sum (rdegrees outer))) (rdegrees inner) /\
    let g := gamma p (compose_roundings (rdegrees outer) (rdegrees inner)) in
    (g < 1 -> positive_weights c /\
     forall k B, (k < m)%nat -> rat_bound outer k B ->
       rat_bound c k (quotient_growth g B) /\
       forall xs, length xs = length (rdegrees inner) -> in_unit_box xs ->
         Rabs (coord m (rvalue c xs) k - coord m (rvalue outer (plist _ (rvalue inner xs))) k) <= quotient_error g B).
Proof.
  intros p rnd MAXB fuel m outer inner Hp HR HM W Wi HC Hsz Hfuel HF HMd HP.
  destruct (g_comp_rr p rnd Hp HR MAXB HM _ inner Wi HC Hsz fuel Hfuel _ (proj1 (proj1 W)) eq_refl HF HMd (ovr := Vr rnd m) (ov := Vp m) eq_refl outer W eq_refl (pos_of outer W HP)) as (q & E & We & De & K).
  exists q. do 3 (split; [assumption|]). intros g HG. destruct (K HG) as (Pe & K2).
  split; [apply pos_to; auto|]. intros k B Hc HBd.
  destruct (K2 _ B (coord_hom rnd m k Hc) (proj1 (bnd_of _ _ _ W) HBd)) as (A1 & A2).
  split; [apply bnd_of; auto|]. exact A2.
Qed.
Lemma c114_rational_scalar : forall p rnd MAXB fuel  (outer : rspline R R) (inner : rspline R (point R (length (rdegrees outer)))),
  (0 < p)%nat -> nearest p rnd -> (MAXB <= 68)%nat -> rwf outer -> rwf inner -> in_cube_weighted inner ->
  (Z.of_nat (n_coeffs (rdegrees inner)) < 2 ^ 31)%Z -> (list_max (rdegrees inner) + 1 < fuel)%nat ->
  Forall (fun q => list_sum (rdegrees outer) * q < MAXB)%nat (rdegrees inner) ->
  Forall (fun q => q < MAXB)%nat (rdegrees outer) -> positive_weights outer ->
  exists c, Compose_RR_rnd_s rnd MAXB fuel outer inner = Ok c /\ rwf c /\ rdegrees c = map (Nat.mul (list_sum (rdegrees outer))) (rdegrees inner) /\
    let g := gamma p (compose_roundings (rdegrees outer) (rdegrees inner)) in
    (g < 1 -> positive_weights c /\
     forall B, rat_bound_s outer B ->
       rat_bound_s c (quotient_growth g B) /\
       forall xs, length xs = length (rdegrees inner) -> in_unit_box xs ->
         Rabs (rvalue c xs - rvalue outer (plist _ (rvalue inner xs))) <= quotient_error g B).
Proof.
  intros p rnd MAXB fuel outer inner Hp HR HM W Wi HC Hsz Hfuel HF HMd HP.
  destruct (g_comp_rr p rnd Hp HR MAXB HM _ inner Wi HC Hsz fuel Hfuel _ (proj1 (proj1 W)) eq_refl HF HMd (ovr := Vsc rnd) (ov := VR) eq_refl outer W eq_refl (pos_of outer W HP)) as (q & E & We & De & K).
  exists q. do 3 (split; [assumption|]). intros g HG. destruct (K HG) as (Pe & K2).
  split; [apply pos_to; auto|]. intros B HBd.
  destruct (K2 _ B (id_hom rnd) (proj1 (bnd_s _ _ W) HBd)) as (A1 & A2).
  split; [apply bnd_s; auto|]. exact A2.
Qed.
Lemma c114_sensitivity : forall p rnd MAXB fuel V (outer : spline V) (inner : rspline R (point R (length (degrees outer)))),
  (0 < p)%nat -> nearest p rnd -> (MAXB <= 68)%nat -> wf outer -> rwf inner -> in_cube_weighted inner ->
  (Z.of_nat (n_coeffs (rdegrees inner)) < 2 ^ 31)%Z -> (list_max (rdegrees inner) + 1 < fuel)%nat ->
  Forall (fun q => list_sum (degrees outer) * q < MAXB)%nat (rdegrees inner) ->
  Forall (fun q => q < MAXB)%nat (degrees outer) ->
  exists ts ts0, ComposeSensitivity_PR_rnd rnd MAXB fuel outer inner = Ok ts /\ ComposeSensitivity_PR MAXB fuel outer inner = Ok ts0 /\
    length ts = n_coeffs (degrees outer) /\ length ts0 = n_coeffs (degrees outer) /\
    let g := gamma p (compose_roundings (degrees outer) (rdegrees inner)) in
    forall i, (i < n_coeffs (degrees outer))%nat -> exists t t0, nth_error ts i = Some t /\ nth_error ts0 i = Some t0 /\ rwf t /\
      rdegrees t = map (Nat.mul (list_sum (degrees outer))) (rdegrees inner) /\ rdegrees t0 = rdegrees t /\
      (forall j, 0 <= nth j (control_points (weighted_spline t)) 0) /\
      (g < 1 -> positive_weights t /\ rat_bound_s t (quotient_growth g 1) /\
       forall xs, length xs = length (rdegrees inner) -> in_unit_box xs -> Rabs (rvalue t xs - rvalue t0 xs) <= quotient_error g 1).
Proof.
  intros p rnd MAXB fuel V outer inner Hp HR HM W Wi HC Hsz Hfuel HF HMd.
  destruct (g_sens_pr p rnd Hp HR MAXB HM _ inner Wi HC Hsz fuel Hfuel _ (proj1 W) eq_refl HF HMd outer W eq_refl) as (ts & ts0 & E & E0 & L & L0 & H).
  exists ts, ts0. do 4 (split; [assumption|]). intros g i Hi. destruct (H i Hi) as (t & t0 & N & N0 & Rt & _ & D & D0 & P & Q). exists t, t0.
  do 6 (split; [assumption|]). intros HG. destruct (Q HG) as (Pe & A1 & A2). split; [apply pos_to; auto|]. split; [apply bnd_s; auto|]. exact A2.
Qed.
Lemma c114_rational_sensitivity : forall p rnd MAXB fuel V (outer : rspline R V) (inner : rspline R (point R (length (rdegrees outer)))),
  (0 < p)%nat -> nearest p rnd -> (MAXB <= 68)%nat -> rwf outer -> rwf inner -> in_cube_weighted inner ->
  (Z.of_nat (n_coeffs (rdegrees inner)) < 2 ^ 31)%Z -> (list_max (rdegrees inner) + 1 < fuel)%nat ->
  Forall (fun q => list_sum (rdegrees outer) * q < MAXB)%nat (rdegrees inner) ->
  Forall (fun q => q < MAXB)%nat (rdegrees outer) -> positive_weights outer ->
  exists ts ts0, ComposeSensitivity_RR_rnd rnd MAXB fuel outer inner = Ok ts /\ ComposeSensitivity_RR MAXB fuel outer inner = Ok ts0 /\
    length ts = n_coeffs (rdegrees outer) /\ length ts0 = n_coeffs (rdegrees outer) /\
    let g := gamma p (compose_roundings (rdegrees outer) (rdegrees inner)) in
    forall i, (i < n_coeffs (rdegrees outer))%nat -> exists t t0, nth_error ts i = Some t /\ nth_error ts0 i = Some t0 /\ rwf t /\
      rdegrees t = map (Nat.mul (list_sum (rdegrees outer))) (rdegrees inner) /\ rdegrees t0 = rdegrees t /\
      (forall j, 0 <= nth j (control_points (weighted_spline t)) 0) /\
      (g < 1 -> positive_weights t /\ rat_bound_s t (quotient_growth g 1) /\
       forall xs, length xs = length (rdegrees inner) -> in_unit_box xs -> Rabs (rvalue t xs - rvalue t0 xs) <= quotient_error g 1).
Proof.
  intros p rnd MAXB fuel V outer inner Hp HR HM W Wi HC Hsz Hfuel HF HMd HP.
  destruct (g_sens_rr p rnd Hp HR MAXB HM _ inner Wi HC Hsz fuel Hfuel _ (proj1 (proj1 W)) eq_refl HF HMd outer W eq_refl (pos_of outer W HP)) as (ts & ts0 & E & E0 & L & L0 & H).
  exists ts, ts0. do 4 (split; [assumption|]). intros g i Hi. destruct (H i Hi) as (t & t0 & N & N0 & Rt & _ & D & D0 & P & Q). exists t, t0.
  do 6 (split; [assumption|]). intros HG. destruct (Q HG) as (Pe & A1 & A2). split; [apply pos_to; auto|]. split; [apply bnd_s; auto|]. exact A2.
Qed.
Lemma c114_polynomial_inner_sensitivity : forall p rnd MAXB V (outer : rspline R V) (inner : spline (point R (length (rdegrees outer)))),
  (0 < p)%nat -> nearest p rnd -> (MAXB <= 68)%nat -> rwf outer -> wf inner ->
  (forall q k, In q (control_points inner) -> (k < length (rdegrees outer))%nat -> 0 <= coord _ q k <= 1) ->
  Forall (fun q => list_sum (rdegrees outer) * q < MAXB)%nat (degrees inner) ->
  Forall (fun q => q < MAXB)%nat (rdegrees outer) -> positive_weights outer ->
  exists ts ts0, ComposeSensitivity_RP_rnd rnd MAXB outer inner = Ok ts /\ ComposeSensitivity_RP MAXB outer inner = Ok ts0 /\
    length ts = n_coeffs (rdegrees outer) /\ length ts0 = n_coeffs (rdegrees outer) /\
    let g := gamma p (compose_roundings (rdegrees outer) (degrees inner)) in
    forall i, (i < n_coeffs (rdegrees outer))%nat -> exists t t0, nth_error ts i = Some t /\ nth_error ts0 i = Some t0 /\ rwf t /\
      rdegrees t = map (Nat.mul (list_sum (rdegrees outer))) (degrees inner) /\ rdegrees t0 = rdegrees t /\
      (forall j, 0 <= nth j (control_points (weighted_spline t)) 0) /\
      (g < 1 -> positive_weights t /\ rat_bound_s t (quotient_growth g 1) /\
       forall xs, length xs = length (degrees inner) -> in_unit_box xs -> Rabs (rvalue t xs - rvalue t0 xs) <= quotient_error g 1).
Proof.
  intros p rnd MAXB V outer inner Hp HR HM W Wi HC HF HMd HP.
  destruct (g_sens_rp p rnd Hp HR MAXB HM outer inner W Wi HC HF HMd (pos_of outer W HP)) as (ts & ts0 & E & E0 & L & L0 & H).
  exists ts, ts0. do 4 (split; [assumption|]). intros g i Hi. destruct (H i Hi) as (t & t0 & N & N0 & Rt & _ & D & D0 & P & Q). exists t, t0.
  do 6 (split; [assumption|]). intros HG. destruct (Q HG) as (Pe & A1 & A2). split; [apply pos_to; auto|]. split; [apply bnd_s; auto|]. exact A2.
Qed.
Lemma c114_outside : forall rnd MAXB fuel m d (outer : spline (point R m)) (inner : rspline R (point R d)), rwf inner ->
  (forall i, (i < n_coeffs (rdegrees inner))%nat -> nth i (control_points (weight_function inner)) 0 <> 0) ->
  ~ (forall i k, (i < n_coeffs (rdegrees inner))%nat -> (k < d)%nat ->
    0 <= rnd (rnd (1 / nth i (control_points (weight_function inner)) 0) * coord d (nth i (control_points (weighted_spline inner)) v0) k) <= 1) ->
  Compose_PR_rnd rnd MAXB fuel outer inner = Throw /\ ComposeSensitivity_PR_rnd rnd MAXB fuel outer inner = Throw.
Proof.
  intros rnd MAXB fuel m d outer inner Wi Hz H. destruct (c104_rational_check rnd d inner Wi Hz) as (b & E & Hb).
  assert (b = false) by (destruct b; auto; exfalso; apply H, Hb; reflexivity). subst b. unfold R_FitsIntoUnitCube_rnd in E.
  unfold Compose_PR_rnd, ComposeSensitivity_PR_rnd, Compose_PR, ComposeSensitivity_PR. rewrite E. split; reflexivity.
Qed.
