(** C119: subdivision of rational splines with bounded exponents. *)
From Coq Require Import Arith Lia List ZArith NArith Bool Reals Lra Psatz.
From Verif Require Import Prelude Scalar Spec SpecSpline SpecRational Sums Order Coord ModelBasis ModelSpline ModelRational
  ModelRound SpecRound ModelIEEE ModelIEEERat SpecIEEE ProofIndex ProofEval ProofSplit ProofRational ProofRound ProofRoundEval ProofRoundOps ProofIEEE ProofIEEEEval
  ClaimsU ClaimsD ClaimsRoundOps ClaimsIEEE SpecRoundSplit ProofRoundSplit SpecIEEESplit ModelIEEESplit ProofIEEESplit ModelIEEESplitRat ProofIEEESplitRat.
Import ListNotations.
Local Open Scope R_scope.

Section At.
Context (F : format) (rnd : R -> R) (HF : reasonable F) (HR : nearest_on_grid F rnd) (planes : list R) (k : nat) (HP : machine_planes F planes).
Let cuts := map (cut_at rnd planes) (seq 0 (length planes)).
Lemma splits_at d (s : spline (point R d)) : wf s -> (k < length (degrees s))%nat -> machine_points F s ->
  exists parts, SplitAtPositions (o := SOps_ieee F rnd) (ov := VOps_point fl d (o := SOps_ieee F rnd)) (fin_spline s) (map Fin planes) k = Ok (map fin_spline parts) /\
    length parts = S (length planes) /\ machine_cuts_near F planes cuts /\
    forall i, (i <= length planes)%nat -> wf (nth i parts s) /\ degrees (nth i parts s) = degrees s /\ machine_points F (nth i parts s) /\
      forall c B, (c < d)%nat -> coord_bound s c B -> forall xs, length xs = length (degrees s) -> in_unit_box xs ->
        Rabs (coord d (value_at (nth i parts s) xs) c - coord d (value_at s (in_part cuts k i xs)) c) <=
          part_error F (nth k (degrees s) 0%nat) (length planes) i B.
Proof using HF HR HP.
  intros W Hk HM.
  destruct (ieee_splits_at F HF rnd HR (ov := VOps_point R d) (ow := VOps_point fl d (o := SOps_ieee F rnd)) fin_spline (machine_points F)
    (fun pr => exists c, (c < d)%nat /\ pr = (fun q => coord d q c))) with (s := s) (planes := planes) (k := k) as (parts & E & L & HC & K); auto.
  - intros pr (c & Hc & ->). split; hom.
  - intros s' x k' Hw Hk' Gx Hx Hm.
    destruct (c90_split F rnd d s' x k' HF HR Hw Hk' Gx Hx Hm) as (l & r & l0 & r0 & E & E0 & W1 & W2 & D1 & D2 & M1 & M2 & K).
    exists l, r, l0, r0. split; [exact E|]. do 7 (split; [assumption|]). intros pr B (c & Hc & ->) HB. exact (K c B Hc HB).
  - exists parts. split; [exact E|]. split; [exact L|]. split; [exact HC|]. intros i Hi. destruct (K i Hi) as (A1 & A2 & A3 & A4).
    do 3 (split; [assumption|]). intros c B Hc HB. apply (A4 _ B (ex_intro _ c (conj Hc eq_refl)) HB).
Qed.
Lemma splits_at_s (s : spline R) : wf s -> (k < length (degrees s))%nat -> machine_coeffs F s ->
  exists parts, SplitAtPositions (o := SOps_ieee F rnd) (ov := VOps_scalar fl (o := SOps_ieee F rnd)) (fin_spline_s s) (map Fin planes) k = Ok (map fin_spline_s parts) /\
    length parts = S (length planes) /\ machine_cuts_near F planes cuts /\
    forall i, (i <= length planes)%nat -> wf (nth i parts s) /\ degrees (nth i parts s) = degrees s /\ machine_coeffs F (nth i parts s) /\
      forall B, coeff_bound s B -> forall xs, length xs = length (degrees s) -> in_unit_box xs ->
        Rabs (value_at (nth i parts s) xs - value_at s (in_part cuts k i xs)) <=
          part_error F (nth k (degrees s) 0%nat) (length planes) i B.
Proof using HF HR HP.
  intros W Hk HM.
  destruct (ieee_splits_at F HF rnd HR (V := R) (ov := VOps_scalar R (o := SOps_R)) (ow := VOps_scalar fl (o := SOps_ieee F rnd)) fin_spline_s (machine_coeffs F)
    (fun pr => pr = (fun q => q))) with (s := s) (planes := planes) (k := k) as (parts & E & L & HC & K); auto.
  - intros pr ->. split; reflexivity.
  - intros s' x k' Hw Hk' Gx Hx Hm.
    destruct (split_ieee F rnd HF HR (V := R) (ovr := Vs rnd) (ov := VOps_scalar R (o := SOps_R)) (ow := VOps_scalar fl (o := SOps_ieee F rnd)) Fin (machine F) (fun q => q)
      (step_fl F HF rnd HR) eq_refl (fun _ _ => eq_refl) (fun _ _ => eq_refl) (fun _ _ => eq_refl) (fun _ _ => eq_refl) eq_refl
      s' x k' Hw Hm Hk' Gx Hx) as (l & r & l0 & r0 & E & E0 & W1 & W2 & D1 & D2 & M1 & M2 & K).
    exists l, r, l0, r0. split; [exact E|]. do 7 (split; [assumption|]). intros pr B -> HB. exact (K B (below_coeff s' B Hw HB)).
  - exists parts. split; [exact E|]. split; [exact L|]. split; [exact HC|]. intros i Hi. destruct (K i Hi) as (A1 & A2 & A3 & A4).
    do 3 (split; [assumption|]). intros B HB. apply (A4 _ B eq_refl HB).
Qed.
End At.

Lemma map2_lift {A B A' B' : Type} (f : spline A -> spline A') (g : spline B -> spline B') us : forall ws,
  map (fun r : rspline B A => mkR (f (weighted_spline r)) (g (weight_function r))) (map2 (fun u w => mkR u w) us ws) = map2 (fun u w => mkR u w) (map f us) (map g ws).
Proof. induction us; intros [|w ws]; cbn [map2 map]; auto. rewrite IHus. reflexivity. Qed.
Lemma map2_at {A B : Type} (us : list (spline A)) : forall (ws : list (spline B)) i u w, length ws = length us ->
  nth i (map2 (fun u w => mkR u w) us ws) (mkR u w) = mkR (nth i us u) (nth i ws w).
Proof. induction us; intros [|y ws] [|i] u w L; try discriminate; cbn [map2 nth]; auto. Qed.
Lemma map2_len {A B : Type} (us : list (spline A)) : forall (ws : list (spline B)), length ws = length us -> length (map2 (fun u w => mkR u w) us ws) = length us.
Proof. induction us; intros [|y ws] L; try discriminate; cbn [map2 length]; auto. Qed.

(** Quotients of perturbed numbers. *)
Lemma quotient_error n w N W eu ew : Rabs (n - N) <= eu -> Rabs (w - W) <= ew -> ew < W ->
  W - ew <= w /\ Rabs (1 / w * n - 1 / W * N) <= (eu + Rabs (1 / W * N) * ew) / (W - ew).
Proof.
  intros Hn Hw Hl. pose proof (Rabs_pos (w - W)) as P. assert (E0 : 0 <= ew) by lra.
  assert (L : W - ew <= w) by (unfold Rabs in Hw; destruct (Rcase_abs (w - W)); lra). split; [exact L|].
  assert (Pw : 0 < w) by lra. assert (PW : 0 < W) by lra.
  set (q := 1 / W * N). replace (1 / w * n - q) with (((n - N) - q * (w - W)) / w) by (unfold q; field; lra).
  unfold Rdiv. rewrite Rabs_mult, (Rabs_right (/ w)) by (apply Rle_ge, Rlt_le, Rinv_0_lt_compat; lra).
  assert (A : Rabs (n - N - q * (w - W)) <= eu + Rabs q * ew).
  { eapply Rle_trans; [apply Rabs_triang|]. rewrite Rabs_Ropp, Rabs_mult. apply Rplus_le_compat; auto. apply Rmult_le_compat_l; auto using Rabs_pos. }
  apply Rmult_le_compat; auto using Rabs_pos; [left; apply Rinv_0_lt_compat; lra|]. apply Rinv_le_contravar; lra.
Qed.

Lemma c119_rational : forall F rnd d (r : rspline R (point R d)) planes k, reasonable F -> nearest_on_grid F rnd ->
  rwf r -> (k < length (rdegrees r))%nat -> machine_points F (weighted_spline r) -> machine_coeffs F (weight_function r) -> machine_planes F planes ->
  exists parts cuts, R_SplitAtPositions_ieee F rnd (fin_rspline r) (map Fin planes) k = Ok (map fin_rspline parts) /\
    length parts = S (length planes) /\ machine_cuts_near F planes cuts /\
    forall i, (i <= length planes)%nat ->
      rwf (nth i parts r) /\ rdegrees (nth i parts r) = rdegrees r /\
      machine_points F (weighted_spline (nth i parts r)) /\ machine_coeffs F (weight_function (nth i parts r)) /\
      forall Bw xs, coeff_bound (weight_function r) Bw -> length xs = length (rdegrees r) -> in_unit_box xs ->
        let w := value_at (weight_function (nth i parts r)) xs in
        let W := value_at (weight_function r) (in_part cuts k i xs) in
        let ew := part_error F (nth k (rdegrees r) 0%nat) (length planes) i Bw in
        Rabs (w - W) <= ew /\
        forall c B, (c < d)%nat -> coord_bound (weighted_spline r) c B ->
          let eu := part_error F (nth k (rdegrees r) 0%nat) (length planes) i B in
          Rabs (coord d (value_at (weighted_spline (nth i parts r)) xs) c - coord d (value_at (weighted_spline r) (in_part cuts k i xs)) c) <= eu /\
          (ew < W -> 0 < w /\
            Rabs (coord d (rvalue (nth i parts r) xs) c - coord d (rvalue r (in_part cuts k i xs)) c) <=
              (eu + Rabs (coord d (rvalue r (in_part cuts k i xs)) c) * ew) / (W - ew)).
Proof.
  intros F rnd d [ru rw] planes k HF HR (Wu & Ww & D) Hk Mu Mw HP. unfold rdegrees in *. cbn [weighted_spline weight_function] in *.
  destruct (splits_at F rnd HF HR planes k HP d ru Wu Hk Mu) as (us & Eu & Lu & HC & Ku).
  destruct (splits_at_s F rnd HF HR planes k HP rw Ww ltac:(now rewrite D) Mw) as (ws & Ew & Lw & _ & Kw).
  assert (LL : length ws = length us) by congruence.
  exists (map2 (fun u w => mkR u w) us ws), (map (cut_at rnd planes) (seq 0 (length planes))).
  split. { unfold R_SplitAtPositions_ieee, fin_rspline at 1. cbn [weighted_spline weight_function].
    rewrite (pair_splits (map Fin planes) k _ _ _ _ (D : degrees (fin_spline_s rw) = degrees (fin_spline ru)) Eu Ew). f_equal. symmetry. apply (map2_lift fin_spline fin_spline_s). }
  split; [rewrite map2_len; auto|]. split; [exact HC|]. intros i Hi. rewrite map2_at by auto. cbn [weighted_spline weight_function].
  destruct (Ku i Hi) as (A1 & A2 & A3 & A4). destruct (Kw i Hi) as (B1 & B2 & B3 & B4).
  split; [split; [|split]; cbn [weighted_spline weight_function]; auto; congruence|]. split; [exact A2|]. split; [exact A3|]. split; [exact B3|].
  intros Bw xs HBw HX HU. cbv zeta. rewrite D in B4. specialize (B4 Bw HBw xs HX HU). split; [exact B4|]. intros c B Hc HB. specialize (A4 c B Hc HB xs HX HU).
  split; [exact A4|]. intros HL. destruct (quotient_error _ _ _ _ _ _ A4 B4 HL) as (Q1 & Q2). split; [lra|].
  assert (HS : forall x (q : point R d), coord d (vscale x q) c = x * coord d q c) by hom.
  unfold rvalue. cbn [weighted_spline weight_function]. rewrite !HS. exact Q2.
Qed.
Lemma c119_rational_scalar : forall F rnd (r : rspline R R) planes k, reasonable F -> nearest_on_grid F rnd ->
  rwf r -> (k < length (rdegrees r))%nat -> machine_coeffs F (weighted_spline r) -> machine_coeffs F (weight_function r) -> machine_planes F planes ->
  exists parts cuts, R_SplitAtPositions_ieee_s F rnd (fin_rspline_s r) (map Fin planes) k = Ok (map fin_rspline_s parts) /\
    length parts = S (length planes) /\ machine_cuts_near F planes cuts /\
    forall i, (i <= length planes)%nat ->
      rwf (nth i parts r) /\ rdegrees (nth i parts r) = rdegrees r /\
      machine_coeffs F (weighted_spline (nth i parts r)) /\ machine_coeffs F (weight_function (nth i parts r)) /\
      forall Bw xs, coeff_bound (weight_function r) Bw -> length xs = length (rdegrees r) -> in_unit_box xs ->
        let w := value_at (weight_function (nth i parts r)) xs in
        let W := value_at (weight_function r) (in_part cuts k i xs) in
        let ew := part_error F (nth k (rdegrees r) 0%nat) (length planes) i Bw in
        Rabs (w - W) <= ew /\
        forall B, coeff_bound (weighted_spline r) B ->
          let eu := part_error F (nth k (rdegrees r) 0%nat) (length planes) i B in
          Rabs (value_at (weighted_spline (nth i parts r)) xs - value_at (weighted_spline r) (in_part cuts k i xs)) <= eu /\
          (ew < W -> 0 < w /\
            Rabs (rvalue (nth i parts r) xs - rvalue r (in_part cuts k i xs)) <=
              (eu + Rabs (rvalue r (in_part cuts k i xs)) * ew) / (W - ew)).
Proof.
  intros F rnd [ru rw] planes k HF HR (Wu & Ww & D) Hk Mu Mw HP. unfold rdegrees in *. cbn [weighted_spline weight_function] in *.
  destruct (splits_at_s F rnd HF HR planes k HP ru Wu Hk Mu) as (us & Eu & Lu & HC & Ku).
  destruct (splits_at_s F rnd HF HR planes k HP rw Ww ltac:(now rewrite D) Mw) as (ws & Ew & Lw & _ & Kw).
  assert (LL : length ws = length us) by congruence.
  exists (map2 (fun u w => mkR u w) us ws), (map (cut_at rnd planes) (seq 0 (length planes))).
  split. { unfold R_SplitAtPositions_ieee_s, fin_rspline_s at 1. cbn [weighted_spline weight_function].
    rewrite (pair_splits (map Fin planes) k _ _ _ _ (D : degrees (fin_spline_s rw) = degrees (fin_spline_s ru)) Eu Ew). f_equal. symmetry. apply (map2_lift fin_spline_s fin_spline_s). }
  split; [rewrite map2_len; auto|]. split; [exact HC|]. intros i Hi. rewrite map2_at by auto. cbn [weighted_spline weight_function].
  destruct (Ku i Hi) as (A1 & A2 & A3 & A4). destruct (Kw i Hi) as (B1 & B2 & B3 & B4).
  split; [split; [|split]; cbn [weighted_spline weight_function]; auto; congruence|]. split; [exact A2|]. split; [exact A3|]. split; [exact B3|].
  intros Bw xs HBw HX HU. cbv zeta. rewrite D in B4. specialize (B4 Bw HBw xs HX HU). split; [exact B4|]. intros B HB. specialize (A4 B HB xs HX HU).
  split; [exact A4|]. intros HL. destruct (quotient_error _ _ _ _ _ _ A4 B4 HL) as (Q1 & Q2). split; [lra|]. exact Q2.
Qed.
