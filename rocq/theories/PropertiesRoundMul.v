(** Properties C85-C87: rounding errors of products, powers and compositions. *)
From Coq Require Import Arith Lia List Bool ZArith Reals Lra.
From Verif Require Import Prelude Scalar Spec SpecSpline Coord ModelBasis ModelSpline ModelPoint
  ModelRound ModelRoundMul SpecRound SpecRoundMul ProofRound ProofEval ProofSplit ProofArith ClaimsU ClaimsRoundMul PropertiesU.
Import ListNotations.
Local Open Scope R_scope.

(** C85: products of splines in rounded arithmetic. *)
Theorem C85_product : forall p rnd MAXB (P Q : spline R) A B, (0 < p)%nat -> nearest p rnd -> (MAXB <= 68)%nat ->
  wf P -> wf Q -> length (degrees Q) = length (degrees P) ->
  Forall (fun k => k < MAXB)%nat (map2 Nat.add (degrees P) (degrees Q)) ->
  coeff_bound P A -> coeff_bound Q B ->
  exists r r0, spline_mul_rnd_ss rnd MAXB P Q = Ok r /\ spline_mul_ss MAXB P Q = Ok r0 /\ wf r /\
    degrees r = map2 Nat.add (degrees P) (degrees Q) /\ degrees r0 = degrees r /\
    let g := gamma p (product_roundings (degrees P) (degrees Q)) in
    (forall i, (i < n_coeffs (degrees r))%nat ->
      Rabs (nth i (control_points r) 0 - nth i (control_points r0) 0) <= g * (A * B)) /\
    forall xs, length xs = length (degrees P) -> in_unit_box xs ->
      Rabs (value_at r xs - value_at P xs * value_at Q xs) <= g * (A * B).
Proof. exact c85_product. Qed.
Print Assumptions C85_product.
Theorem C85_product_nonneg : forall p rnd MAXB (P Q : spline R), (0 < p)%nat -> nearest p rnd -> (MAXB <= 68)%nat ->
  wf P -> wf Q -> length (degrees Q) = length (degrees P) ->
  Forall (fun k => k < MAXB)%nat (map2 Nat.add (degrees P) (degrees Q)) ->
  Forall (fun c => 0 <= c) (control_points P) -> Forall (fun c => 0 <= c) (control_points Q) ->
  exists r r0, spline_mul_rnd_ss rnd MAXB P Q = Ok r /\ spline_mul_ss MAXB P Q = Ok r0 /\ degrees r0 = degrees r /\
    let k := product_roundings (degrees P) (degrees Q) in
    forall i, (i < n_coeffs (degrees r))%nat ->
      0 <= nth i (control_points r0) 0 /\
      (1 - / 2 ^ p) ^ k * nth i (control_points r0) 0 <= nth i (control_points r) 0 <= (1 + / 2 ^ p) ^ k * nth i (control_points r0) 0.
Proof. exact c85_product_nonneg. Qed.
Print Assumptions C85_product_nonneg.
Theorem C85_product_point_scalar : forall p rnd MAXB d (P : spline (point R d)) (Q : spline R), (0 < p)%nat -> nearest p rnd -> (MAXB <= 68)%nat ->
  wf P -> wf Q -> length (degrees Q) = length (degrees P) ->
  Forall (fun k => k < MAXB)%nat (map2 Nat.add (degrees P) (degrees Q)) ->
  exists r r0, spline_mul_rnd_ps rnd MAXB P Q = Ok r /\ spline_mul MAXB (fun q c => vscale c q) P Q = Ok r0 /\ wf r /\
    degrees r = map2 Nat.add (degrees P) (degrees Q) /\ degrees r0 = degrees r /\
    forall c A B, (c < d)%nat -> coord_bound P c A -> coeff_bound Q B ->
    let g := gamma p (product_roundings (degrees P) (degrees Q)) in
    (forall i, (i < n_coeffs (degrees r))%nat ->
      Rabs (coord d (nth i (control_points r) v0) c - coord d (nth i (control_points r0) v0) c) <= g * (A * B)) /\
    forall xs, length xs = length (degrees P) -> in_unit_box xs ->
      Rabs (coord d (value_at r xs) c - value_at Q xs * coord d (value_at P xs) c) <= g * (A * B).
Proof. exact c85_product_point_scalar. Qed.
Print Assumptions C85_product_point_scalar.
Theorem C85_product_scalar_point : forall p rnd MAXB d (P : spline R) (Q : spline (point R d)), (0 < p)%nat -> nearest p rnd -> (MAXB <= 68)%nat ->
  wf P -> wf Q -> length (degrees Q) = length (degrees P) ->
  Forall (fun k => k < MAXB)%nat (map2 Nat.add (degrees P) (degrees Q)) ->
  exists r r0, spline_mul_rnd_sp rnd MAXB P Q = Ok r /\ spline_mul MAXB (fun c q => vscale c q) P Q = Ok r0 /\ wf r /\
    degrees r = map2 Nat.add (degrees P) (degrees Q) /\ degrees r0 = degrees r /\
    forall c A B, (c < d)%nat -> coeff_bound P A -> coord_bound Q c B ->
    let g := gamma p (product_roundings (degrees P) (degrees Q)) in
    (forall i, (i < n_coeffs (degrees r))%nat ->
      Rabs (coord d (nth i (control_points r) v0) c - coord d (nth i (control_points r0) v0) c) <= g * (A * B)) /\
    forall xs, length xs = length (degrees P) -> in_unit_box xs ->
      Rabs (coord d (value_at r xs) c - value_at P xs * coord d (value_at Q xs) c) <= g * (A * B).
Proof. exact c85_product_scalar_point. Qed.
Print Assumptions C85_product_scalar_point.
Theorem C85_dot_is : forall rnd d (a b : point R d), point_dot (o := SOps_rnd rnd) a b = Ok (dot_rnd rnd d a b).
Proof. exact c85_dot_is. Qed.
Print Assumptions C85_dot_is.
Theorem C85_product_dot : forall p rnd MAXB d (P Q : spline (point R d)) A B, (0 < p)%nat -> nearest p rnd -> (MAXB <= 68)%nat ->
  wf P -> wf Q -> length (degrees Q) = length (degrees P) ->
  Forall (fun k => k < MAXB)%nat (map2 Nat.add (degrees P) (degrees Q)) ->
  0 <= A -> 0 <= B -> (forall c, (c < d)%nat -> coord_bound P c A) -> (forall c, (c < d)%nat -> coord_bound Q c B) ->
  exists r r0, spline_mul_rnd_pp rnd MAXB P Q = Ok r /\
    spline_mul MAXB (fun a b => ssum d (fun k => smul (coord d a k) (coord d b k))) P Q = Ok r0 /\ wf r /\
    degrees r = map2 Nat.add (degrees P) (degrees Q) /\ degrees r0 = degrees r /\
    let g := gamma p (d + product_roundings (degrees P) (degrees Q)) in
    (forall i, (i < n_coeffs (degrees r))%nat ->
      Rabs (nth i (control_points r) 0 - nth i (control_points r0) 0) <= g * (INR d * (A * B))) /\
    forall xs, length xs = length (degrees P) -> in_unit_box xs ->
      exists x, point_dot (value_at P xs) (value_at Q xs) = Ok x /\ Rabs (value_at r xs - x) <= g * (INR d * (A * B)).
Proof. exact c85_product_dot. Qed.
Print Assumptions C85_product_dot.
(** A product of two linear functions in double precision, and one of two positive linear functions. *)
Example C85_case :
  let a : spline R := mkSpline [1%nat] 2 [1%nat] [1; 3] in
  let b : spline R := mkSpline [1%nat] 2 [1%nat] [2; -4] in
  let c : spline R := mkSpline [1%nat] 2 [1%nat] [2; 5] in
  wf a /\ wf b /\ wf c /\ coeff_bound a 3 /\ coeff_bound b 4 /\
  value_at a [1 / 2] = 2 /\ value_at b [1 / 2] = -1 /\ product_roundings (degrees a) (degrees b) = 9%nat /\
  (exists r, spline_mul_rnd_ss (round_to 53) 5 a b = Ok r /\ degrees r = [2%nat] /\
    Rabs (value_at r [1 / 2] + 2) <= 216 / 2 ^ 53) /\
  exists r r0, spline_mul_rnd_ss (round_to 53) 5 a c = Ok r /\ spline_mul_ss 5 a c = Ok r0 /\
    nth 1 (control_points r) 0 <= (1 + / 2 ^ 53) ^ 9 * nth 1 (control_points r0) 0.
Proof.
  intros a b c.
  assert (Wa : wf a) by (repeat split; discriminate). assert (Wb : wf b) by (repeat split; discriminate).
  assert (Wc : wf c) by (repeat split; discriminate).
  assert (HR : nearest 53 (round_to 53)) by (apply nearest_round_to; lia).
  assert (Ba : coeff_bound a 3).
  { intros i Hi. change (n_coeffs (degrees a)) with 2%nat in Hi. destruct i as [|[|i]]; [| |lia]; cbn; rewrite Rabs_right; lra. }
  assert (Bb : coeff_bound b 4).
  { intros i Hi. change (n_coeffs (degrees b)) with 2%nat in Hi. destruct i as [|[|i]]; [| |lia]; cbn.
    - rewrite Rabs_right; lra. - rewrite Rabs_left; lra. }
  assert (HX : in_unit_box [1 / 2]) by (constructor; [lra|constructor]).
  assert (Va : value_at a [1 / 2] = 2) by (cbn; lra). assert (Vb : value_at b [1 / 2] = -1) by (cbn; lra).
  do 7 (split; [assumption|]). split; [reflexivity|]. split.
  - destruct (C85_product 53 (round_to 53) 5 a b 3 4) as (r & _ & E & _ & _ & D & _ & _ & K); auto; try lia; try (repeat constructor; lia).
    exists r. split; [exact E|]. split; [exact D|]. specialize (K [1 / 2] eq_refl HX). rewrite Va, Vb in K.
    change (product_roundings (degrees a) (degrees b)) with 9%nat in K.
    assert (G : 0 <= gamma 53 9 <= 2 * INR 9 * / 2 ^ 53) by (apply C71_gamma; simpl; lra). simpl INR in G.
    replace (value_at r [1 / 2] + 2) with (value_at r [1 / 2] - 2 * -1) by ring. lra.
  - destruct (C85_product_nonneg 53 (round_to 53) 5 a c) as (r & r0 & E & E0 & D & K); auto; try lia; try (repeat constructor; lia);
      try (repeat constructor; lra).
    exists r, r0. split; [exact E|]. split; [exact E0|].
    destruct (C85_product 53 (round_to 53) 5 a c 3 5) as (r' & _ & E' & _ & _ & D' & _); auto; try lia; try (repeat constructor; lia).
    { intros i Hi. change (n_coeffs (degrees c)) with 2%nat in Hi. destruct i as [|[|i]]; [| |lia]; cbn; rewrite Rabs_right; lra. }
    rewrite E in E'. injection E' as <-. specialize (K 1%nat). rewrite D' in K.
    change (product_roundings (degrees a) (degrees c)) with 9%nat in K. apply K. cbn. lia.
Qed.

(** C86: integer powers in rounded arithmetic. *)
Theorem C86_power : forall p rnd MAXB (s : spline R) n B, (0 < p)%nat -> nearest p rnd -> (MAXB <= 68)%nat -> wf s ->
  Forall (fun k => n * k < MAXB)%nat (degrees s) -> coeff_bound s B ->
  exists r r0, RaisePower_rnd rnd MAXB s n = Ok r /\ RaisePower MAXB s n = Ok r0 /\ wf r /\
    degrees r = map (Nat.mul n) (degrees s) /\ degrees r0 = degrees r /\
    let g := gamma p (power_roundings (degrees s) n) in
    (forall i, (i < n_coeffs (degrees r))%nat ->
      Rabs (nth i (control_points r) 0 - nth i (control_points r0) 0) <= g * B ^ n) /\
    forall xs, length xs = length (degrees s) -> in_unit_box xs ->
      Rabs (value_at r xs - value_at s xs ^ n) <= g * B ^ n.
Proof. exact c86_power. Qed.
Print Assumptions C86_power.
(** The third power of a linear function. *)
Example C86_case :
  let s : spline R := mkSpline [1%nat] 2 [1%nat] [1; 3] in
  wf s /\ coeff_bound s 3 /\ value_at s [1 / 2] = 2 /\ power_roundings (degrees s) 3 = 18%nat /\
  exists r, RaisePower_rnd (round_to 53) 5 s 3 = Ok r /\ degrees r = [3%nat] /\
    Rabs (value_at r [1 / 2] - 8) <= 972 / 2 ^ 53.
Proof.
  intros s.
  assert (Hw : wf s) by (repeat split; discriminate).
  assert (HR : nearest 53 (round_to 53)) by (apply nearest_round_to; lia).
  assert (HB : coeff_bound s 3).
  { intros i Hi. change (n_coeffs (degrees s)) with 2%nat in Hi. destruct i as [|[|i]]; [| |lia]; cbn; rewrite Rabs_right; lra. }
  assert (HX : in_unit_box [1 / 2]) by (constructor; [lra|constructor]).
  assert (HV : value_at s [1 / 2] = 2) by (cbn; lra).
  do 3 (split; [assumption|]). split; [reflexivity|].
  destruct (C86_power 53 (round_to 53) 5 s 3 3) as (r & _ & E & _ & _ & D & _ & _ & K); auto; try lia; try (repeat constructor; lia).
  exists r. split; [exact E|]. split; [exact D|]. specialize (K [1 / 2] eq_refl HX). rewrite HV in K.
  change (power_roundings (degrees s) 3) with 18%nat in K.
  assert (G : 0 <= gamma 53 18 <= 2 * INR 18 * / 2 ^ 53) by (apply C71_gamma; simpl; lra). simpl INR in G.
  replace (2 ^ 3) with 8 in K by (simpl; lra). replace (3 ^ 3) with 27 in K by (simpl; lra). lra.
Qed.

(** C87: compositions in rounded arithmetic. *)
Theorem C87_compose : forall p rnd MAXB d (outer : spline (point R d)) (inner : spline (point R (length (degrees outer)))),
  (0 < p)%nat -> nearest p rnd -> (MAXB <= 68)%nat -> wf outer -> wf inner ->
  (forall q k, In q (control_points inner) -> (k < length (degrees outer))%nat -> 0 <= coord _ q k <= 1) ->
  Forall (fun q => list_sum (degrees outer) * q < MAXB)%nat (degrees inner) ->
  Forall (fun q => q < MAXB)%nat (degrees outer) ->
  exists r r0, Compose_rnd rnd MAXB outer inner = Ok r /\ Compose MAXB outer inner = Ok r0 /\ wf r /\
    degrees r = map (Nat.mul (list_sum (degrees outer))) (degrees inner) /\ degrees r0 = degrees r /\
    forall c B, (c < d)%nat -> coord_bound outer c B ->
    let g := gamma p (compose_roundings (degrees outer) (degrees inner)) in
    (forall i, (i < n_coeffs (degrees r))%nat ->
      Rabs (coord d (nth i (control_points r) v0) c - coord d (nth i (control_points r0) v0) c) <= g * B) /\
    forall xs, length xs = length (degrees inner) -> in_unit_box xs ->
      Rabs (coord d (value_at r xs) c - coord d (value_at outer (plist _ (value_at inner xs))) c) <= g * B.
Proof. exact c87_compose. Qed.
Print Assumptions C87_compose.
Theorem C87_compose_scalar : forall p rnd MAXB (outer : spline R) (inner : spline (point R (length (degrees outer)))) B,
  (0 < p)%nat -> nearest p rnd -> (MAXB <= 68)%nat -> wf outer -> wf inner ->
  (forall q k, In q (control_points inner) -> (k < length (degrees outer))%nat -> 0 <= coord _ q k <= 1) ->
  Forall (fun q => list_sum (degrees outer) * q < MAXB)%nat (degrees inner) ->
  Forall (fun q => q < MAXB)%nat (degrees outer) -> coeff_bound outer B ->
  exists r r0, Compose_rnd_s rnd MAXB outer inner = Ok r /\ Compose MAXB outer inner = Ok r0 /\ wf r /\
    degrees r = map (Nat.mul (list_sum (degrees outer))) (degrees inner) /\ degrees r0 = degrees r /\
    let g := gamma p (compose_roundings (degrees outer) (degrees inner)) in
    (forall i, (i < n_coeffs (degrees r))%nat ->
      Rabs (nth i (control_points r) 0 - nth i (control_points r0) 0) <= g * B) /\
    forall xs, length xs = length (degrees inner) -> in_unit_box xs ->
      Rabs (value_at r xs - value_at outer (plist _ (value_at inner xs))) <= g * B.
Proof. exact c87_compose_scalar. Qed.
Print Assumptions C87_compose_scalar.
Theorem C87_sensitivity : forall p rnd MAXB V (outer : spline V) (inner : spline (point R (length (degrees outer)))),
  (0 < p)%nat -> nearest p rnd -> (MAXB <= 68)%nat -> wf outer -> wf inner ->
  (forall q k, In q (control_points inner) -> (k < length (degrees outer))%nat -> 0 <= coord _ q k <= 1) ->
  Forall (fun q => list_sum (degrees outer) * q < MAXB)%nat (degrees inner) ->
  Forall (fun q => q < MAXB)%nat (degrees outer) ->
  exists ts ts0, ComposeSensitivity_rnd rnd MAXB outer inner = Ok ts /\ ComposeSensitivity MAXB outer inner = Ok ts0 /\
    length ts = n_coeffs (degrees outer) /\ length ts0 = n_coeffs (degrees outer) /\
    let k := sensitivity_roundings (degrees outer) (degrees inner) in
    forall i, (i < n_coeffs (degrees outer))%nat -> exists t t0, nth_error ts i = Some t /\ nth_error ts0 i = Some t0 /\ wf t /\
      degrees t = map (Nat.mul (list_sum (degrees outer))) (degrees inner) /\ degrees t0 = degrees t /\
      forall j, 0 <= nth j (control_points t0) 0 /\
        (1 - / 2 ^ p) ^ k * nth j (control_points t0) 0 <= nth j (control_points t) 0 <= (1 + / 2 ^ p) ^ k * nth j (control_points t0) 0.
Proof. exact c87_sensitivity. Qed.
Print Assumptions C87_sensitivity.
Theorem C87_outside : forall rnd MAXB m d (outer : spline (point R m)) (inner : spline (point R d)), wf inner ->
  (exists q k, In q (control_points inner) /\ (k < d)%nat /\ ~ 0 <= coord _ q k <= 1) ->
  Compose_rnd rnd MAXB outer inner = Throw /\ ComposeSensitivity_rnd rnd MAXB outer inner = Throw.
Proof. exact c87_outside. Qed.
Print Assumptions C87_outside.
(** A parabola composed with a linear map of [0,1] onto [0,1/2]. *)
Example C87_case :
  let outer : spline R := mkSpline [2%nat] 3 [1%nat] [1; 3; -5] in
  let inner : spline (point R 1) := mkSpline [1%nat] 2 [1%nat] [(0, tt); (1 / 2, tt)] in
  wf outer /\ wf inner /\ coeff_bound outer 5 /\ compose_roundings (degrees outer) (degrees inner) = 47%nat /\
  sensitivity_roundings (degrees outer) (degrees inner) = 44%nat /\
  (exists r, Compose_rnd_s (round_to 53) 5 outer inner = Ok r /\ degrees r = [2%nat] /\
    Rabs (value_at r [1 / 2] - 11 / 8) <= 470 / 2 ^ 53) /\
  exists ts t, ComposeSensitivity_rnd (round_to 53) 5 outer inner = Ok ts /\ length ts = 3%nat /\ nth_error ts 1 = Some t /\ degrees t = [2%nat].
Proof.
  intros outer inner.
  assert (Ho : wf outer) by (repeat split; discriminate). assert (Hi : wf inner) by (repeat split; discriminate).
  assert (HR : nearest 53 (round_to 53)) by (apply nearest_round_to; lia).
  assert (HB : coeff_bound outer 5).
  { intros i Hx. change (n_coeffs (degrees outer)) with 3%nat in Hx. destruct i as [|[|[|i]]]; [| | |lia]; cbn.
    - rewrite Rabs_right; lra. - rewrite Rabs_right; lra. - rewrite Rabs_left; lra. }
  assert (HX : in_unit_box [1 / 2]) by (constructor; [lra|constructor]).
  assert (HC : forall q k, In q (control_points inner) -> (k < 1)%nat -> 0 <= coord 1 q k <= 1).
  { intros q k Hq Hk. replace k with 0%nat by lia. destruct Hq as [<-|[<-|[]]]; unfold coord; cbn [plist fst nth]; lra. }
  do 3 (split; [assumption|]). split; [reflexivity|]. split; [reflexivity|]. split.
  - destruct (C87_compose_scalar 53 (round_to 53) 5 outer inner 5) as (r & _ & E & _ & _ & D & _ & _ & K); auto; try lia; try (repeat constructor; cbn; lia).
    exists r. split; [exact E|]. split; [exact D|]. specialize (K [1 / 2] eq_refl HX).
    replace (value_at outer (plist (length (degrees outer)) (value_at inner [1 / 2]))) with (11 / 8) in K by (cbn; lra).
    change (compose_roundings (degrees outer) (degrees inner)) with 47%nat in K.
    assert (G : 0 <= gamma 53 47 <= 2 * INR 47 * / 2 ^ 53) by (apply C71_gamma; simpl; lra). simpl INR in G. lra.
  - destruct (C87_sensitivity 53 (round_to 53) 5 R outer inner) as (ts & ts0 & E & _ & L & _ & K); auto; try lia; try (repeat constructor; cbn; lia).
    destruct (K 1%nat ltac:(cbn; lia)) as (t & t0 & Et & _ & _ & D & _). exists ts, t. auto.
Qed.
