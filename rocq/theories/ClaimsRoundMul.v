(** Proofs of C85-C87. *)
From Coq Require Import Arith Lia List ZArith NArith Bool Reals Lra Psatz.
From Verif Require Import Prelude Scalar Spec SpecSpline Sums Order Coord ModelBasis ModelSpline ModelPoint
  ModelRound ModelRoundMul SpecRound SpecRoundMul ProofIndex ProofBasis ProofEval ProofElevate ProofArith ProofMul ProofCompose
  ProofRound ProofRoundEval ProofRoundOps ProofRawMul ProofRoundMul ProofRoundCompose ClaimsB ClaimsE ClaimsU ClaimsX ClaimsRoundOps.
Import ListNotations.
Local Open Scope R_scope.

Notation VR := (VOps_scalar R (o := SOps_R)).

Lemma bound_all {V} {ov : VOps R V} (pr : V -> R) (s : spline V) B : wf s -> pr v0 = 0 -> 0 <= B ->
  (forall i, (i < n_coeffs (degrees s))%nat -> Rabs (pr (nth i (control_points s) v0)) <= B) ->
  forall i, Rabs (pr (nth i (control_points s) v0)) <= B.
Proof.
  intros W P0 B0 H i. destruct (lt_dec i (n_coeffs (degrees s))); auto.
  rewrite nth_overflow by (rewrite (proj2 (proj2 (proj2 W))); lia). now rewrite P0, Rabs_R0.
Qed.
Lemma bound_pos {V} {ov : VOps R V} (pr : V -> R) (s : spline V) B : wf s ->
  (forall i, (i < n_coeffs (degrees s))%nat -> Rabs (pr (nth i (control_points s) v0)) <= B) -> 0 <= B.
Proof. intros W H. eapply Rle_trans; [apply Rabs_pos|]. apply (H 0%nat). apply n_coeffs_pos. Qed.
Lemma Er_of p x A : Rabs x <= A -> Er ((1 + / 2 ^ p) ^ 0) x x A.
Proof. intros H. split; auto. replace (x - x) with 0 by ring. rewrite Rabs_R0. cbn. lra. Qed.

(** ** C85: products *)
Lemma c85_product : forall p rnd MAXB (P Q : spline R) A B, (0 < p)%nat -> nearest p rnd -> (MAXB <= 68)%nat ->
  wf P -> wf Q -> length (degrees Q) = length (degrees P) ->
  Forall (fun k => k < MAXB)%nat (map2 Nat.add (degrees P) (degrees Q)) ->
  coeff_bound P A -> coeff_bound Q B ->
  exists r r0, spline_mul_rnd_ss rnd MAXB P Q = Ok r /\ spline_mul_ss MAXB P Q = Ok r0 /\ wf r /\
    degrees r = map2 Nat.add (degrees P) (degrees Q) /\ degrees r0 = degrees r /\
    let g := gamma p (product_roundings (degrees P) (degrees Q)) in
    (forall i, (i < n_coeffs (degrees r))%nat ->
      Rabs (nth i (control_points r) 0 - nth i (control_points r0) 0) <= g * (A * B)) /\
    forall xs, length xs = length (degrees P) -> in_unit_box xs ->
      Rabs (value_at r xs - value_at P xs * value_at Q xs) <= g * (A * B).
Proof.
  intros p rnd MAXB P Q A B Hp HR HB WP WQ HL HM HA HBd.
  pose proof (bound_pos (ov := VR) (fun x => x) P A WP HA) as A0. pose proof (bound_pos (ov := VR) (fun x => x) Q B WQ HBd) as B0.
  destruct (mul_err p rnd Hp HR MAXB HB (V1 := R) (V2 := R) (V3 := R) (ovr := VOps_scalar R (o := SOps_rnd rnd)) (ov := VR) (fun x => x) (fun _ _ => eq_refl) (fun _ _ => eq_refl)
    (fun _ _ => eq_refl) (fun _ _ => eq_refl) (smul (SOps := SOps_rnd rnd)) (smul (SOps := SOps_R)) 1 (A * B) eq_refl eq_refl 0 0 P P Q Q WP WP WQ WQ eq_refl eq_refl HL HM)
    as (r & r0 & E & E0 & W & W0 & D0 & D & C).
  { intros i j. cbn [smul SOps_rnd SOps_R]. apply (Er_r p rnd Hp HR). apply (Er_m p Hp 0 0); apply Er_of.
    - apply (bound_all (ov := VR) (fun x => x) P A WP eq_refl A0 HA).
    - apply (bound_all (ov := VR) (fun x => x) Q B WQ eq_refl B0 HBd). }
  exists r, r0. split; [exact E|]. split; [exact E0|]. split; [exact W|]. split; [congruence|]. split; [congruence|]. intros g.
  assert (K : forall i, (i < n_coeffs (degrees r0))%nat -> Rabs (nth i (control_points r) 0 - nth i (control_points r0) 0) <= g * (A * B)).
  { intros i Hi. specialize (C i Hi). destruct C as (C & _). unfold g, gamma.
    replace (1 + product_roundings (degrees P) (degrees Q) - 1)%nat with (product_roundings (degrees P) (degrees Q)) in C by lia. exact C. }
  split; [rewrite D; exact K|]. intros xs HX HU.
  destruct (spline_mul_ok (T := R) (V1 := R) (V2 := R) (V3 := R) smul MAXB HB P Q WP WQ HL HM) as (r1 & E1 & _ & _ & HV).
  assert (r1 = r0) by (unfold spline_mul_ss in E0; cbn in E0, E1; congruence). subst r1.
  change (value_at P xs * value_at Q xs) with (smul (value_at P xs) (value_at Q xs)). rewrite <- (HV xs HX).
  apply (close_values (ov := VR) (fun x => x) (fun _ _ => eq_refl) (fun _ _ => eq_refl)); auto.
  rewrite D0, length_map2_add; auto.
Qed.

(** Non-negative factors: every coefficient has the relative accuracy of the roundings. *)
Lemma c85_product_nonneg : forall p rnd MAXB (P Q : spline R), (0 < p)%nat -> nearest p rnd -> (MAXB <= 68)%nat ->
  wf P -> wf Q -> length (degrees Q) = length (degrees P) ->
  Forall (fun k => k < MAXB)%nat (map2 Nat.add (degrees P) (degrees Q)) ->
  Forall (fun c => 0 <= c) (control_points P) -> Forall (fun c => 0 <= c) (control_points Q) ->
  exists r r0, spline_mul_rnd_ss rnd MAXB P Q = Ok r /\ spline_mul_ss MAXB P Q = Ok r0 /\ degrees r0 = degrees r /\
    let k := product_roundings (degrees P) (degrees Q) in
    forall i, (i < n_coeffs (degrees r))%nat ->
      0 <= nth i (control_points r0) 0 /\
      (1 - / 2 ^ p) ^ k * nth i (control_points r0) 0 <= nth i (control_points r) 0 <= (1 + / 2 ^ p) ^ k * nth i (control_points r0) 0.
Proof.
  intros p rnd MAXB P Q Hp HR HB WP WQ HL HM HA HBd.
  assert (Z : forall s : spline R, wf s -> Forall (fun c => 0 <= c) (control_points s) -> close p 0 s s).
  { intros s W H. split; auto. split; auto. split; auto. intros i. apply (Sr'_x p rnd Hp HR).
    destruct (nth_in_or_default i (control_points s) 0) as [I| ->]; [|lra]. rewrite Forall_forall in H. auto. }
  destruct (mul_close p rnd Hp HR MAXB HB 0 0 P P Q Q (Z P WP HA) (Z Q WQ HBd) HL HM) as (r & r0 & E & E0 & D & (W & W0 & DD & C)).
  exists r, r0. split; [exact E|]. split; [exact E0|]. split; [congruence|]. intros k i Hi. exact (C i).
Qed.


(** A bilinear product of splines in both arithmetics, seen through any number of coordinates of the result. *)
Section Bil.
Context (p : nat) (rnd : R -> R) (Hp : (0 < p)%nat) (HR : nearest p rnd) (MAXB : nat) (HB : (MAXB <= 68)%nat).
Context {V1 V2 V3 : Type} {o1 : VOps R V1} {o2 : VOps R V2} {o3r o3 : VOps R V3} {M1 : VMod R V1} {M2 : VMod R V2} {M3 : VMod R V3}.
Context (pm' pm : V1 -> V2 -> V3) {BL : Bilinear (T := R) (o1 := o1) (o2 := o2) (o3 := o3) pm}.
Context (v0_r : v0 (VOps := o3r) = v0 (VOps := o3)).
Context (P : spline V1) (Q : spline V2) (WP : wf P) (WQ : wf Q) (HL : length (degrees Q) = length (degrees P))
        (HM : Forall (fun k => k < MAXB)%nat (map2 Nat.add (degrees P) (degrees Q))) (e : nat).

Definition hom_to (pr : V3 -> R) : Prop :=
  (forall a b, pr (vadd (VOps := o3) a b) = pr a + pr b) /\ (forall c a, pr (vscale (VOps := o3) c a) = c * pr a) /\
  (forall a b, pr (vadd (VOps := o3r) a b) = rnd (pr a + pr b)) /\ (forall c a, pr (vscale (VOps := o3r) c a) = rnd (c * pr a)) /\
  pr (v0 (VOps := o3)) = 0.

Lemma bil_err : exists r r0, spline_mul (o := SOps_rnd rnd) (o3 := o3r) MAXB pm' P Q = Ok r /\ spline_mul (o3 := o3) MAXB pm P Q = Ok r0 /\ wf r /\
    degrees r = map2 Nat.add (degrees P) (degrees Q) /\ degrees r0 = degrees r /\
    forall pr M, hom_to pr ->
      (forall i j, Er ((1 + / 2 ^ p) ^ e) (pr (pm' (nth i (control_points P) v0) (nth j (control_points Q) v0)))
        (pr (pm (nth i (control_points P) v0) (nth j (control_points Q) v0))) M) ->
      let g := gamma p (e + product_roundings (degrees P) (degrees Q) - 1) in
      (forall i, (i < n_coeffs (degrees r))%nat ->
        Rabs (pr (nth i (control_points r) v0) - pr (nth i (control_points r0) v0)) <= g * M) /\
      forall xs, length xs = length (degrees P) -> in_unit_box xs ->
        Rabs (pr (value_at r xs) - pr (pm (value_at P xs) (value_at Q xs))) <= g * M.
Proof using Hp HR HB BL v0_r WP WQ HL HM M1 M2 M3.
  assert (Z : forall A (x : A), 0 = rnd (0 + 0) /\ (forall c, 0 = rnd (c * 0))).
  { intros. split; [apply (add0 _ _ HR)|intros; apply (mul0 _ _ _ HR)]. }
  destruct (mul_err p rnd Hp HR MAXB HB (ovr := o3r) (ov := o3) (fun _ => 0) ltac:(nohom HR) ltac:(nohom HR) ltac:(nohom HR) ltac:(nohom HR) pm' pm 0 0 v0_r eq_refl
    v0 v0 P P Q Q WP WP WQ WQ eq_refl eq_refl HL HM) as (r & r0 & E & E0 & W & W0 & D0 & D & _).
  { intros. apply Er_of. rewrite Rabs_R0. lra. }
  exists r, r0. split; [exact E|]. split; [exact E0|]. split; [exact W|]. split; [congruence|]. split; [congruence|].
  intros pr M (H1 & H2 & H3 & H4 & H5) HE g.
  destruct (mul_err p rnd Hp HR MAXB HB (ovr := o3r) (ov := o3) pr H1 H2 H3 H4 pm' pm e M v0_r H5
    v0 v0 P P Q Q WP WP WQ WQ eq_refl eq_refl HL HM HE) as (r' & r0' & E' & E0' & _ & _ & _ & _ & C).
  rewrite E in E'. injection E' as <-. rewrite E0 in E0'. injection E0' as <-.
  assert (K : forall i, (i < n_coeffs (degrees r0))%nat -> Rabs (pr (nth i (control_points r) v0) - pr (nth i (control_points r0) v0)) <= g * M).
  { intros i Hi. exact (proj1 (C i Hi)). }
  split; [rewrite D; exact K|]. intros xs HX HU.
  destruct (spline_mul_ok pm MAXB HB P Q WP WQ HL HM) as (r1 & E1 & _ & _ & HV).
  rewrite E0 in E1. injection E1 as <-. rewrite <- (HV xs HX).
  apply (close_values (ov := o3) pr H1 H2); auto. rewrite D0, length_map2_add; auto.
Qed.
End Bil.

Lemma coord_hom rnd d c : (c < d)%nat -> hom_to (o3 := VOps_point R d) (o3r := Vr rnd d) rnd (fun q => coord d q c).
Proof.
  intros Hc. split; [hom|]. split; [hom|]. split; [intros; apply coord_add_rnd; auto|]. split; [intros; apply coord_scale_rnd; auto|].
  exact (coord_0 (o := SOps_R) d c).
Qed.

Lemma c85_product_point_scalar : forall p rnd MAXB d (P : spline (point R d)) (Q : spline R), (0 < p)%nat -> nearest p rnd -> (MAXB <= 68)%nat ->
  wf P -> wf Q -> length (degrees Q) = length (degrees P) ->
  Forall (fun k => k < MAXB)%nat (map2 Nat.add (degrees P) (degrees Q)) ->
  exists r r0, spline_mul_rnd_ps rnd MAXB P Q = Ok r /\ spline_mul MAXB (fun q c => vscale c q) P Q = Ok r0 /\ wf r /\
    degrees r = map2 Nat.add (degrees P) (degrees Q) /\ degrees r0 = degrees r /\
    forall c A B, (c < d)%nat -> coord_bound P c A -> coeff_bound Q B ->
    let g := gamma p (product_roundings (degrees P) (degrees Q)) in
    (forall i, (i < n_coeffs (degrees r))%nat ->
      Rabs (coord d (nth i (control_points r) v0) c - coord d (nth i (control_points r0) v0) c) <= g * (A * B)) /\
    forall xs, length xs = length (degrees P) -> in_unit_box xs ->
      Rabs (coord d (value_at r xs) c - value_at Q xs * coord d (value_at P xs) c) <= g * (A * B).
Proof.
  intros p rnd MAXB d P Q Hp HR HB WP WQ HL HM.
  destruct (bil_err p rnd Hp HR MAXB HB (V1 := point R d) (V2 := R) (o1 := VOps_point R d (o := SOps_R)) (o2 := VR) (o3 := VOps_point R d (o := SOps_R)) (o3r := Vr rnd d) (fun q c => vscale (VOps := Vr rnd d) c q) (fun q c => vscale (VOps := VOps_point R d (o := SOps_R)) c q) (BL := Bilinear_ps) eq_refl P Q WP WQ HL HM 1)
    as (r & r0 & E & E0 & W & D & D0 & K).
  exists r, r0. do 5 (split; [assumption|]). intros c A B Hc HA HBd g.
  pose proof (bound_pos (fun q => coord d q c) P A WP HA) as A0. pose proof (bound_pos (ov := VR) (fun x => x) Q B WQ HBd) as B0.
  destruct (K (fun q => coord d q c) (A * B) (coord_hom rnd d c Hc)) as (K1 & K2).
  { intros i j. rewrite (coord_scale_rnd rnd d _ _ c Hc), (coord_scale (o := SOps_R)). cbn [smul SOps_R]. rewrite (Rmult_comm A). apply (Er_r p rnd Hp HR).
    apply (Er_m p Hp 0 0); apply Er_of.
    - apply (bound_all (ov := VR) (fun x => x) Q B WQ eq_refl B0 HBd).
    - apply (bound_all (fun q => coord d q c) P A WP (coord_0 (o := SOps_R) d c) A0 HA). }
  replace (1 + product_roundings (degrees P) (degrees Q) - 1)%nat with (product_roundings (degrees P) (degrees Q)) in K1, K2 by lia.
  split; [exact K1|]. intros xs HX HU. specialize (K2 xs HX HU). rewrite (coord_scale (o := SOps_R)) in K2. exact K2.
Qed.

Lemma c85_product_scalar_point : forall p rnd MAXB d (P : spline R) (Q : spline (point R d)), (0 < p)%nat -> nearest p rnd -> (MAXB <= 68)%nat ->
  wf P -> wf Q -> length (degrees Q) = length (degrees P) ->
  Forall (fun k => k < MAXB)%nat (map2 Nat.add (degrees P) (degrees Q)) ->
  exists r r0, spline_mul_rnd_sp rnd MAXB P Q = Ok r /\ spline_mul MAXB (fun c q => vscale c q) P Q = Ok r0 /\ wf r /\
    degrees r = map2 Nat.add (degrees P) (degrees Q) /\ degrees r0 = degrees r /\
    forall c A B, (c < d)%nat -> coeff_bound P A -> coord_bound Q c B ->
    let g := gamma p (product_roundings (degrees P) (degrees Q)) in
    (forall i, (i < n_coeffs (degrees r))%nat ->
      Rabs (coord d (nth i (control_points r) v0) c - coord d (nth i (control_points r0) v0) c) <= g * (A * B)) /\
    forall xs, length xs = length (degrees P) -> in_unit_box xs ->
      Rabs (coord d (value_at r xs) c - value_at P xs * coord d (value_at Q xs) c) <= g * (A * B).
Proof.
  intros p rnd MAXB d P Q Hp HR HB WP WQ HL HM.
  destruct (bil_err p rnd Hp HR MAXB HB (V1 := R) (V2 := point R d) (o1 := VR) (o2 := VOps_point R d (o := SOps_R)) (o3 := VOps_point R d (o := SOps_R)) (o3r := Vr rnd d) (fun c q => vscale (VOps := Vr rnd d) c q) (fun c q => vscale (VOps := VOps_point R d (o := SOps_R)) c q) (BL := Bilinear_sp) eq_refl P Q WP WQ HL HM 1)
    as (r & r0 & E & E0 & W & D & D0 & K).
  exists r, r0. do 5 (split; [assumption|]). intros c A B Hc HA HBd g.
  pose proof (bound_pos (fun q => coord d q c) Q B WQ HBd) as B0. pose proof (bound_pos (ov := VR) (fun x => x) P A WP HA) as A0.
  destruct (K (fun q => coord d q c) (A * B) (coord_hom rnd d c Hc)) as (K1 & K2).
  { intros i j. rewrite (coord_scale_rnd rnd d _ _ c Hc), (coord_scale (o := SOps_R)). cbn [smul SOps_R]. apply (Er_r p rnd Hp HR).
    apply (Er_m p Hp 0 0); apply Er_of.
    - apply (bound_all (ov := VR) (fun x => x) P A WP eq_refl A0 HA).
    - apply (bound_all (fun q => coord d q c) Q B WQ (coord_0 (o := SOps_R) d c) B0 HBd). }
  replace (1 + product_roundings (degrees P) (degrees Q) - 1)%nat with (product_roundings (degrees P) (degrees Q)) in K1, K2 by lia.
  split; [exact K1|]. intros xs HX HU. specialize (K2 xs HX HU). rewrite (coord_scale (o := SOps_R)) in K2. exact K2.
Qed.

Lemma dot_err p rnd d (a b : point R d) A B : (0 < p)%nat -> nearest p rnd -> 0 <= A -> 0 <= B ->
  (forall c, (c < d)%nat -> Rabs (coord d a c) <= A) -> (forall c, (c < d)%nat -> Rabs (coord d b c) <= B) ->
  Er ((1 + / 2 ^ p) ^ (d + 1)) (dot_rnd rnd d a b) (dot d a b) (INR d * (A * B)).
Proof.
  intros Hp HR A0 B0 HA HBd. unfold dot_rnd, dot.
  assert (H : forall n, (n <= d)%nat -> Er ((1 + / 2 ^ p) ^ (n + 1))
    (ssum (o := SOps_rnd rnd) n (fun k => smul (SOps := SOps_rnd rnd) (coord (o := SOps_rnd rnd) d a k) (coord (o := SOps_rnd rnd) d b k)))
    (ssum (T := R) n (fun k => smul (coord d a k) (coord d b k))) (INR n * (A * B))).
  { induction n as [|n IH]; intros Hn.
    - change (Er ((1 + / 2 ^ p) ^ (0 + 1)) 0 0 (0 * (A * B))). rewrite Rmult_0_l. apply (Er_up p Hp 0); [lia|]. apply Er_exact_pos. lra.
    - rewrite S_INR. cbn [ssum sadd SOps_rnd SOps_R]. rewrite Rmult_plus_distr_r, Rmult_1_l. cbn [Nat.add]. apply (Er_r p rnd Hp HR). apply Er_add; [apply IH; lia|].
      cbn [smul SOps_rnd SOps_R]. apply (Er_up p Hp 1); [lia|]. apply (Er_r p rnd Hp HR). apply (Er_m p Hp 0 0); apply Er_of; [apply HA|apply HBd]; lia. }
  apply H. lia.
Qed.
Lemma c85_dot_is : forall rnd d (a b : point R d), point_dot (o := SOps_rnd rnd) a b = Ok (dot_rnd rnd d a b).
Proof.
  intros. unfold point_dot, dot_rnd.
  edestruct (for_up_inv (fun n r => r = ssum (o := SOps_rnd rnd) n (fun k => smul (SOps := SOps_rnd rnd) (coord (o := SOps_rnd rnd) d a k) (coord (o := SOps_rnd rnd) d b k)))) as (r & E & H).
  3:{ rewrite E, H. reflexivity. }
  - reflexivity.
  - intros i x Hi ->. cbv beta. rewrite !(pget_ok (o := SOps_rnd rnd)) by lia. cbn [bind]. eexists. split; reflexivity.
Qed.

Lemma c85_product_dot : forall p rnd MAXB d (P Q : spline (point R d)) A B, (0 < p)%nat -> nearest p rnd -> (MAXB <= 68)%nat ->
  wf P -> wf Q -> length (degrees Q) = length (degrees P) ->
  Forall (fun k => k < MAXB)%nat (map2 Nat.add (degrees P) (degrees Q)) ->
  0 <= A -> 0 <= B -> (forall c, (c < d)%nat -> coord_bound P c A) -> (forall c, (c < d)%nat -> coord_bound Q c B) ->
  exists r r0, spline_mul_rnd_pp rnd MAXB P Q = Ok r /\
    spline_mul MAXB (fun a b => ssum d (fun k => smul (coord d a k) (coord d b k))) P Q = Ok r0 /\ wf r /\
    degrees r = map2 Nat.add (degrees P) (degrees Q) /\ degrees r0 = degrees r /\
    let g := gamma p (d + product_roundings (degrees P) (degrees Q)) in
    (forall i, (i < n_coeffs (degrees r))%nat ->
      Rabs (nth i (control_points r) 0 - nth i (control_points r0) 0) <= g * (INR d * (A * B))) /\
    forall xs, length xs = length (degrees P) -> in_unit_box xs ->
      exists x, point_dot (value_at P xs) (value_at Q xs) = Ok x /\ Rabs (value_at r xs - x) <= g * (INR d * (A * B)).
Proof.
  intros p rnd MAXB d P Q A B Hp HR HB WP WQ HL HM A0 B0 HA HBd.
  destruct (bil_err p rnd Hp HR MAXB HB (V1 := point R d) (V2 := point R d) (V3 := R) (o1 := VOps_point R d (o := SOps_R)) (o2 := VOps_point R d (o := SOps_R)) (o3 := VR) (o3r := VOps_scalar R (o := SOps_rnd rnd)) (dot_rnd rnd d) (dot (T := R) d) (BL := Bilinear_dot d) eq_refl P Q WP WQ HL HM (d + 1))
    as (r & r0 & E & E0 & W & D & D0 & K).
  exists r, r0. do 5 (split; [assumption|]). intros g.
  destruct (K (fun x => x) (INR d * (A * B))) as (K1 & K2).
  { repeat split; intros; reflexivity. }
  { intros i j. apply dot_err; auto; intros c Hc.
    - apply (bound_all (fun q => coord d q c) P A WP (coord_0 (o := SOps_R) d c) A0 (HA c Hc)).
    - apply (bound_all (fun q => coord d q c) Q B WQ (coord_0 (o := SOps_R) d c) B0 (HBd c Hc)). }
  replace (d + 1 + product_roundings (degrees P) (degrees Q) - 1)%nat with (d + product_roundings (degrees P) (degrees Q))%nat in K1, K2 by lia.
  split; [exact K1|]. intros xs HX HU. exists (dot d (value_at P xs) (value_at Q xs)). split; [|exact (K2 xs HX HU)].
  apply (dot_loop (T := R)).
Qed.

(** ** C86: powers *)
Lemma c86_power : forall p rnd MAXB (s : spline R) n B, (0 < p)%nat -> nearest p rnd -> (MAXB <= 68)%nat -> wf s ->
  Forall (fun k => n * k < MAXB)%nat (degrees s) -> coeff_bound s B ->
  exists r r0, RaisePower_rnd rnd MAXB s n = Ok r /\ RaisePower MAXB s n = Ok r0 /\ wf r /\
    degrees r = map (Nat.mul n) (degrees s) /\ degrees r0 = degrees r /\
    let g := gamma p (power_roundings (degrees s) n) in
    (forall i, (i < n_coeffs (degrees r))%nat ->
      Rabs (nth i (control_points r) 0 - nth i (control_points r0) 0) <= g * B ^ n) /\
    forall xs, length xs = length (degrees s) -> in_unit_box xs ->
      Rabs (value_at r xs - value_at s xs ^ n) <= g * B ^ n.
Proof.
  intros p rnd MAXB s n B Hp HR HB W HF HBd. pose proof (bound_pos (ov := VR) (fun x => x) s B W HBd) as B0.
  assert (N0 : near p 0 B s s).
  { split; auto. split; auto. split; auto. split; auto. intros i. apply Er_of. apply (bound_all (ov := VR) (fun x => x) s B W eq_refl B0 HBd). }
  destruct (RaisePower_near p rnd Hp HR MAXB HB s s 0 B n N0 (S n) n ltac:(lia) ltac:(lia) HF) as (r & r0 & E & E0 & D & (Wr & W0 & DD & _ & C)).
  exists r, r0. split; [exact E|]. split; [exact E0|]. split; [exact Wr|]. split; [congruence|]. split; [congruence|]. intros g.
  assert (K : forall i, (i < n_coeffs (degrees r0))%nat -> Rabs (nth i (control_points r) 0 - nth i (control_points r0) 0) <= g * B ^ n).
  { intros i _. destruct (C i) as (C1 & _). unfold g, gamma, power_roundings. rewrite Nat.mul_0_r, Nat.add_0_l in C1. exact C1. }
  split; [rewrite DD; exact K|]. intros xs HX HU.
  destruct (RaisePower_ok (T := R) MAXB HB s n W HF) as (r1 & E1 & _ & _ & HV). unfold RaisePower in E1. rewrite E0 in E1. injection E1 as <-.
  replace (value_at s xs ^ n) with (value_at r0 xs).
  2:{ rewrite (HV xs HX). clear. induction n; cbn [spow pow s1 smul SOps_R]; [reflexivity|]. rewrite IHn. reflexivity. }
  apply (close_values (ov := VR) (fun x => x) (fun _ _ => eq_refl) (fun _ _ => eq_refl)); auto. rewrite D, map_length. exact HX.
Qed.

(** ** C87: compositions *)
Section CompErr.
Context (p : nat) (rnd : R -> R) (Hp : (0 < p)%nat) (HR : nearest p rnd) (MAXB : nat) (HB : (MAXB <= 68)%nat).
Context {V : Type} {ovr ov : VOps R V} {M : VMod R V} (v0_r : v0 (VOps := ovr) = v0 (VOps := ov)).
Context (outer : spline V) (Ho : wf outer) (inner : spline (point R (length (degrees outer)))) (Hi : wf inner).
Context (HC : forall q k, In q (control_points inner) -> (k < length (degrees outer))%nat -> 0 <= coord _ q k <= 1).
Context (HF : Forall (fun p => list_sum (degrees outer) * p < MAXB)%nat (degrees inner)).
Context (HM : Forall (fun p => p < MAXB)%nat (degrees outer)).

Lemma cube_unit q k : In q (control_points inner) -> (k < length (degrees outer))%nat -> in_unit (coord _ q k).
Proof using HC.
  intros Hq Hk. pose proof (HC q k Hq Hk). split; unfold sle; cbn [sltb SOps_R]; destruct (Rlt_dec _ _); auto; exfalso; cbn [s0 s1 SOps_R] in *; lra.
Qed.

Lemma comp_err : exists r r0, Compose (o := SOps_rnd rnd) (ov := ovr) MAXB outer inner = Ok r /\ Compose (ov := ov) MAXB outer inner = Ok r0 /\ wf r /\ wf r0 /\
    degrees r = map (Nat.mul (list_sum (degrees outer))) (degrees inner) /\ degrees r0 = degrees r /\
    (forall xs, length xs = length (degrees inner) -> value_at r0 xs = value_at outer (plist _ (value_at inner xs))) /\
    forall pr B, hom_to (o3 := ov) (o3r := ovr) rnd pr ->
      (forall i, (i < n_coeffs (degrees outer))%nat -> Rabs (pr (nth i (control_points outer) v0)) <= B) ->
      let g := gamma p (compose_roundings (degrees outer) (degrees inner)) in
      (forall i, (i < n_coeffs (degrees r))%nat ->
        Rabs (pr (nth i (control_points r) v0) - pr (nth i (control_points r0) v0)) <= g * B) /\
      forall xs, length xs = length (degrees inner) -> in_unit_box xs ->
        Rabs (pr (value_at r xs) - pr (value_at outer (plist _ (value_at inner xs)))) <= g * B.
Proof using Hp HR HB M v0_r Ho Hi HC HF HM.
  destruct (Sens_rel p rnd Hp HR MAXB HB outer Ho inner Hi HC HF HM) as (ts' & ts & Es' & Es & L' & L & Hts & Hcomp).
  destruct (Hcomp ovr) as (r & E & W & D & Cr). clear Hcomp.
  destruct (c76_compose R V SOps_R ov _ M _ MAXB outer inner HB Ho Hi cube_unit HF HM) as (r0 & ts0 & E0 & Es0 & _ & _ & _ & Hw).
  rewrite Es in Es0. injection Es0 as <-.
  destruct (Compose_ok MAXB HB _ inner Hi cube_unit outer Ho eq_refl HF HM) as (r1 & E1 & W0 & D0 & _).
  rewrite E0 in E1. injection E1 as <-.
  exists r, r0. split; [exact E|]. split; [exact E0|]. split; [exact W|]. split; [exact W0|]. split; [exact D|]. split; [congruence|].
  assert (HV : forall xs, length xs = length (degrees inner) -> value_at r0 xs = value_at outer (plist _ (value_at inner xs))).
  { intros xs HX. apply (Compose_value MAXB HB _ inner Hi cube_unit outer Ho eq_refl HF HM r0 E0 xs HX). }
  split; [exact HV|]. intros pr B (H1 & H2 & H3 & H4 & H5) HBd g.
  set (n := n_coeffs (degrees outer)) in *. set (K := sensitivity_roundings (degrees outer) (degrees inner)) in *.
  set (w' i j := nth j (nth i (map control_points ts') []) 0) in *. set (w i j := nth j (nth i (map control_points ts) []) 0) in *.
  assert (Ww : forall i j, (i < n)%nat -> Sr' (/ 2 ^ p) K (w' i j) (w i j)).
  { intros i j Hn. destruct (Hts i Hn) as (t' & t & Et' & Et & ((_ & _ & _ & C) & _)). unfold w', w.
    rewrite (nth_indep (map control_points ts') [] (control_points t')) by (rewrite map_length; lia). rewrite (nth_indep (map control_points ts) [] (control_points t)) by (rewrite map_length; lia).
    rewrite !map_nth, (nth_error_nth _ _ t' Et'), (nth_error_nth _ _ t Et). apply C. }
  assert (Psum : forall m f, pr (vsum (ov := ov) m f) = vsum (V := R) m (fun i => pr (f i))).
  { intros m f. induction m; cbn [vsum]; [exact H5|]. rewrite H1, IHm. reflexivity. }
  assert (Psumr : forall m f, pr (vsum (ov := ovr) m f) = vsum (ov := VOps_scalar R (o := SOps_rnd rnd)) m (fun i => pr (f i))).
  { intros m f. induction m; cbn [vsum]; [rewrite v0_r; exact H5|]. rewrite H3, IHm. reflexivity. }
  assert (KK : forall j, (j < n_coeffs (degrees r0))%nat -> Rabs (pr (nth j (control_points r) v0) - pr (nth j (control_points r0) v0)) <= g * B).
  { intros j Hj. rewrite <- (proj2 (proj2 (proj2 W0))) in Hj. destruct (Hw j Hj) as (S1 & S2).
    rewrite (proj2 (proj2 (proj2 W0))) in Hj. rewrite v0_r in Cr. rewrite Cr by (rewrite D, <- D0; auto). rewrite S2, L. fold n.
    rewrite Psum, Psumr.
    pose proof (Accumulate_err rnd (/ 2 ^ p) (unit_pos p) (nearest_error p rnd Hp HR) (unit_lt_1 p Hp) 0 K (fun i => w i j) (fun i => w' i j) (fun i => pr (nth i (control_points outer) v0))
      (rnd_idem p rnd HR) n (fun i Hn => Ww i j Hn)) as A.
    destruct A as (A & _).
    rewrite (vsum_ext (ov := VOps_scalar R (o := SOps_rnd rnd)) n _ (fun i => rnd (w' i j * pr (nth i (control_points outer) v0)))) by (intros i Hn; apply H4).
    rewrite (vsum_ext (ov := VR) n _ (fun i => w i j * pr (nth i (control_points outer) v0))) by (intros i Hn; apply H2).
    eapply Rle_trans; [exact A|]. unfold g, gamma, compose_roundings. fold K n. apply Rmult_le_compat_l.
    { pose proof (u_pow (/ 2 ^ p) (unit_pos p) (K + n)). lra. }
    apply Rle_trans with (vsum (V := R) n (fun i => w i j * B)).
    - assert (Mon : forall m, (m <= n)%nat -> vsum (V := R) m (fun i => w i j * Rabs (pr (nth i (control_points outer) v0))) <= vsum (V := R) m (fun i => w i j * B)).
      { induction m; intros Hm; cbn [vsum]; [apply Rle_refl|]. cbn [vadd VOps_scalar sadd SOps_R]. apply Rplus_le_compat; [apply IHm; lia|].
        apply Rmult_le_compat_l; [apply (Ww m j); lia|]. apply HBd. lia. }
      apply Mon. lia.
    - right. rewrite (vsum_ext (ov := VR) n _ (fun i => B * w i j)) by (intros; apply Rmult_comm).
      etransitivity; [exact (ssum_scale (T := R) n B (fun i => w i j))|]. rewrite L in S1. fold n in S1. change (ssum (T := R) n (fun i => w i j) = 1) in S1. rewrite S1. cbn. ring. }
  split; [rewrite D, <- D0; exact KK|]. intros xs HX HU. rewrite <- (HV xs HX).
  apply (close_values (ov := ov) pr H1 H2); auto; [congruence|]. rewrite D0, map_length. exact HX.
Qed.
End CompErr.

Lemma c87_compose : forall p rnd MAXB d (outer : spline (point R d)) (inner : spline (point R (length (degrees outer)))),
  (0 < p)%nat -> nearest p rnd -> (MAXB <= 68)%nat -> wf outer -> wf inner ->
  (forall q k, In q (control_points inner) -> (k < length (degrees outer))%nat -> 0 <= coord _ q k <= 1) ->
  Forall (fun q => list_sum (degrees outer) * q < MAXB)%nat (degrees inner) ->
  Forall (fun q => q < MAXB)%nat (degrees outer) ->
  exists r r0, Compose_rnd rnd MAXB outer inner = Ok r /\ Compose MAXB outer inner = Ok r0 /\ wf r /\
    degrees r = map (Nat.mul (list_sum (degrees outer))) (degrees inner) /\ degrees r0 = degrees r /\
    forall c B, (c < d)%nat -> coord_bound outer c B ->
    let g := gamma p (compose_roundings (degrees outer) (degrees inner)) in
    (forall i, (i < n_coeffs (degrees r))%nat ->
      Rabs (coord d (nth i (control_points r) v0) c - coord d (nth i (control_points r0) v0) c) <= g * B) /\
    forall xs, length xs = length (degrees inner) -> in_unit_box xs ->
      Rabs (coord d (value_at r xs) c - coord d (value_at outer (plist _ (value_at inner xs))) c) <= g * B.
Proof.
  intros p rnd MAXB d outer inner Hp HR HB Ho Hi HC HF HM.
  destruct (comp_err p rnd Hp HR MAXB HB (ovr := Vr rnd d) (ov := VOps_point R d (o := SOps_R)) eq_refl outer Ho inner Hi HC HF HM) as (r & r0 & E & E0 & W & _ & D & D0 & _ & K).
  exists r, r0. do 5 (split; [assumption|]). intros c B Hc HBd g.
  exact (K (fun q => coord d q c) B (coord_hom rnd d c Hc) HBd).
Qed.
Lemma c87_compose_scalar : forall p rnd MAXB (outer : spline R) (inner : spline (point R (length (degrees outer)))) B,
  (0 < p)%nat -> nearest p rnd -> (MAXB <= 68)%nat -> wf outer -> wf inner ->
  (forall q k, In q (control_points inner) -> (k < length (degrees outer))%nat -> 0 <= coord _ q k <= 1) ->
  Forall (fun q => list_sum (degrees outer) * q < MAXB)%nat (degrees inner) ->
  Forall (fun q => q < MAXB)%nat (degrees outer) -> coeff_bound outer B ->
  exists r r0, Compose_rnd_s rnd MAXB outer inner = Ok r /\ Compose MAXB outer inner = Ok r0 /\ wf r /\
    degrees r = map (Nat.mul (list_sum (degrees outer))) (degrees inner) /\ degrees r0 = degrees r /\
    let g := gamma p (compose_roundings (degrees outer) (degrees inner)) in
    (forall i, (i < n_coeffs (degrees r))%nat ->
      Rabs (nth i (control_points r) 0 - nth i (control_points r0) 0) <= g * B) /\
    forall xs, length xs = length (degrees inner) -> in_unit_box xs ->
      Rabs (value_at r xs - value_at outer (plist _ (value_at inner xs))) <= g * B.
Proof.
  intros p rnd MAXB outer inner B Hp HR HB Ho Hi HC HF HM HBd.
  destruct (comp_err p rnd Hp HR MAXB HB (ovr := VOps_scalar R (o := SOps_rnd rnd)) (ov := VR) eq_refl outer Ho inner Hi HC HF HM) as (r & r0 & E & E0 & W & _ & D & D0 & _ & K).
  exists r, r0. do 5 (split; [assumption|]). intros g.
  apply (K (fun q => q) B); [repeat split; intros; reflexivity|exact HBd].
Qed.
(** The sensitivities are non-negative and have the relative accuracy of the roundings. *)
Lemma c87_sensitivity : forall p rnd MAXB V (outer : spline V) (inner : spline (point R (length (degrees outer)))),
  (0 < p)%nat -> nearest p rnd -> (MAXB <= 68)%nat -> wf outer -> wf inner ->
  (forall q k, In q (control_points inner) -> (k < length (degrees outer))%nat -> 0 <= coord _ q k <= 1) ->
  Forall (fun q => list_sum (degrees outer) * q < MAXB)%nat (degrees inner) ->
  Forall (fun q => q < MAXB)%nat (degrees outer) ->
  exists ts ts0, ComposeSensitivity_rnd rnd MAXB outer inner = Ok ts /\ ComposeSensitivity MAXB outer inner = Ok ts0 /\
    length ts = n_coeffs (degrees outer) /\ length ts0 = n_coeffs (degrees outer) /\
    let k := sensitivity_roundings (degrees outer) (degrees inner) in
    forall i, (i < n_coeffs (degrees outer))%nat -> exists t t0, nth_error ts i = Some t /\ nth_error ts0 i = Some t0 /\ wf t /\
      degrees t = map (Nat.mul (list_sum (degrees outer))) (degrees inner) /\ degrees t0 = degrees t /\
      forall j, 0 <= nth j (control_points t0) 0 /\
        (1 - / 2 ^ p) ^ k * nth j (control_points t0) 0 <= nth j (control_points t) 0 <= (1 + / 2 ^ p) ^ k * nth j (control_points t0) 0.
Proof.
  intros p rnd MAXB V outer inner Hp HR HB Ho Hi HC HF HM.
  destruct (Sens_rel p rnd Hp HR MAXB HB outer Ho inner Hi HC HF HM) as (ts' & ts & Es' & Es & L' & L & Hts & _).
  exists ts', ts. split; [exact Es'|]. split; [exact Es|]. split; [exact L'|]. split; [exact L|]. intros k i Hn.
  destruct (Hts i Hn) as (t' & t & Et' & Et & ((W' & W & DD & C) & D)). exists t', t. split; [exact Et'|]. split; [exact Et|].
  split; [exact W'|]. split; [congruence|]. split; [congruence|]. intros j. exact (C j).
Qed.
(** The decision whether the inner spline fits is not affected by rounding. *)
Lemma c87_outside : forall rnd MAXB m d (outer : spline (point R m)) (inner : spline (point R d)), wf inner ->
  (exists q k, In q (control_points inner) /\ (k < d)%nat /\ ~ 0 <= coord _ q k <= 1) ->
  Compose_rnd rnd MAXB outer inner = Throw /\ ComposeSensitivity_rnd rnd MAXB outer inner = Throw.
Proof.
  intros rnd MAXB m d outer inner Hi (q & k & Hq & Hk & Hn).
  destruct (fits_dec d inner Hi) as (b & E & H).
  unfold Compose_rnd, ComposeSensitivity_rnd, Compose, ComposeSensitivity. rewrite fits_rnd, E. cbn [bind].
  destruct b; [|auto]. exfalso. apply Hn. destruct (proj1 H eq_refl q k Hq Hk) as (A & B). unfold sle in A, B. cbn [sltb SOps_R s0 s1] in A, B.
  destruct (Rlt_dec _ _) in A; [discriminate|]. destruct (Rlt_dec _ _) in B; [discriminate|]. change R0 with 0 in *. change R1 with 1 in *. lra.
Qed.
