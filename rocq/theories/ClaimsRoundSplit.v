(** C116: rounding errors of the subdivision at several planes. *)
From Coq Require Import Arith Lia List ZArith NArith Bool Reals Lra Psatz.
From Verif Require Import Prelude Scalar Spec SpecSpline SpecRational Sums Order Coord ModelBasis ModelSpline ModelPoint ModelRational
  ModelRound ModelRoundMul SpecRound SpecRoundMul ProofIndex ProofEval ProofSplit ProofRational ProofRational2 ProofRound ProofRoundEval ProofRoundOps
  ClaimsB ClaimsE ClaimsU ClaimsX ClaimsRoundOps ClaimsRoundMul ModelRoundRat SpecRoundRat ProofRoundRat ProofRoundRat2 ProofRoundRat3 ClaimsRoundRat
  ClaimsD SpecRoundSplit ModelRoundSplit ProofRoundSplit.
Import ListNotations.
Local Open Scope R_scope.

Lemma c116_splits : forall p rnd d (s : spline (point R d)) planes k, (0 < p)%nat -> nearest p rnd -> wf s ->
  (k < length (degrees s))%nat -> planes_inside p planes ->
  exists parts cuts, SplitAtPositions_rnd rnd s planes k = Ok parts /\ length parts = S (length planes) /\ cuts_near p planes cuts /\
    forall i, (i <= length planes)%nat -> wf (nth i parts s) /\ degrees (nth i parts s) = degrees s /\
      forall c B, (c < d)%nat -> coord_bound s c B ->
      forall xs, length xs = length (degrees s) -> in_unit_box xs ->
        Rabs (coord d (value_at (nth i parts s) xs) c - coord d (value_at s (in_part cuts k i xs)) c) <=
          gamma p (part_roundings (nth k (degrees s) 0%nat) (length planes) i) * B.
Proof.
  intros p rnd d s planes k Hp HR W Hk HPl.
  destruct (g_splits p rnd Hp HR (ovr := Vr rnd d) (ov := Vp d) eq_refl s planes k W Hk HPl) as (parts & cuts & E & L & HC & K).
  exists parts, cuts. split; [exact E|]. split; [exact L|]. split; [exact HC|]. intros i Hi. destruct (K i Hi) as (W' & D' & K').
  split; [exact W'|]. split; [exact D'|]. intros c B Hc HB. exact (K' _ B (coord_hom rnd d c Hc) HB).
Qed.
Lemma c116_splits_scalar : forall p rnd (s : spline R) planes k, (0 < p)%nat -> nearest p rnd -> wf s ->
  (k < length (degrees s))%nat -> planes_inside p planes ->
  exists parts cuts, SplitAtPositions_rnd_s rnd s planes k = Ok parts /\ length parts = S (length planes) /\ cuts_near p planes cuts /\
    forall i, (i <= length planes)%nat -> wf (nth i parts s) /\ degrees (nth i parts s) = degrees s /\
      forall B, coeff_bound s B ->
      forall xs, length xs = length (degrees s) -> in_unit_box xs ->
        Rabs (value_at (nth i parts s) xs - value_at s (in_part cuts k i xs)) <=
          gamma p (part_roundings (nth k (degrees s) 0%nat) (length planes) i) * B.
Proof.
  intros p rnd s planes k Hp HR W Hk HPl.
  destruct (g_splits p rnd Hp HR (ovr := Vsc rnd) (ov := VR) eq_refl s planes k W Hk HPl) as (parts & cuts & E & L & HC & K).
  exists parts, cuts. split; [exact E|]. split; [exact L|]. split; [exact HC|]. intros i Hi. destruct (K i Hi) as (W' & D' & K').
  split; [exact W'|]. split; [exact D'|]. intros B HB. exact (K' _ B (id_hom rnd) HB).
Qed.
Lemma c116_planes : forall p rnd d (s : spline (point R d)) planes k, (0 < p)%nat -> nearest p rnd -> wf s ->
  (k < length (degrees s))%nat -> planes_inside p planes ->
  exists parts, SplitAtPositions_rnd rnd s planes k = Ok parts /\ length parts = S (length planes) /\
    forall i c B xs, (i <= length planes)%nat -> (c < d)%nat -> coord_bound s c B -> length xs = length (degrees s) -> in_unit_box xs ->
      Rabs (coord d (value_at (nth i parts s) xs) c - coord d (value_at s (in_part planes k i xs)) c) <=
        (gamma p (part_roundings (nth k (degrees s) 0%nat) (length planes) i) + 2 * INR (nth k (degrees s) 0%nat) * gamma p 4) * B.
Proof.
  intros p rnd d s planes k Hp HR W Hk HPl. destruct (c116_splits p rnd d s planes k Hp HR W Hk HPl) as (parts & cuts & E & L & HC & K).
  exists parts. split; [exact E|]. split; [exact L|]. intros i c B xs Hi Hc HB HX HU. destruct (coord_hom rnd d c Hc) as (P1 & P2 & _).
  apply (at_planes (ov := Vp d) p s (nth i parts s) (fun q => coord d q c) B planes cuts); auto. apply (K i Hi); auto.
Qed.
Lemma c116_planes_scalar : forall p rnd (s : spline R) planes k, (0 < p)%nat -> nearest p rnd -> wf s ->
  (k < length (degrees s))%nat -> planes_inside p planes ->
  exists parts, SplitAtPositions_rnd_s rnd s planes k = Ok parts /\ length parts = S (length planes) /\
    forall i B xs, (i <= length planes)%nat -> coeff_bound s B -> length xs = length (degrees s) -> in_unit_box xs ->
      Rabs (value_at (nth i parts s) xs - value_at s (in_part planes k i xs)) <=
        (gamma p (part_roundings (nth k (degrees s) 0%nat) (length planes) i) + 2 * INR (nth k (degrees s) 0%nat) * gamma p 4) * B.
Proof.
  intros p rnd s planes k Hp HR W Hk HPl. destruct (c116_splits_scalar p rnd s planes k Hp HR W Hk HPl) as (parts & cuts & E & L & HC & K).
  exists parts. split; [exact E|]. split; [exact L|]. intros i B xs Hi HB HX HU. destruct (id_hom rnd) as (P1 & P2 & _).
  apply (at_planes (V := R) (ov := VR) p s (nth i parts s) (fun q => q) B planes cuts); auto. apply (K i Hi); auto.
Qed.
Lemma c116_rational : forall p rnd d (r : rspline R (point R d)) planes k, (0 < p)%nat -> nearest p rnd -> rwf r ->
  (k < length (rdegrees r))%nat -> planes_inside p planes -> positive_weights r ->
  exists parts cuts, R_SplitAtPositions_rnd rnd r planes k = Ok parts /\ length parts = S (length planes) /\ cuts_near p planes cuts /\
    forall i, (i <= length planes)%nat -> rwf (nth i parts r) /\ rdegrees (nth i parts r) = rdegrees r /\
      let g := gamma p (part_roundings (nth k (rdegrees r) 0%nat) (length planes) i) in
      (g < 1 -> positive_weights (nth i parts r) /\
       forall c B, (c < d)%nat -> rat_bound r c B -> rat_bound (nth i parts r) c (quotient_growth g B) /\
       forall xs, length xs = length (rdegrees r) -> in_unit_box xs ->
         Rabs (coord d (rvalue (nth i parts r) xs) c - coord d (rvalue r (in_part cuts k i xs)) c) <= quotient_error g B).
Proof.
  intros p rnd d r planes k Hp HR W Hk HPl HP.
  destruct (g_rsplits p rnd Hp HR (ovr := Vr rnd d) (ov := Vp d) eq_refl r planes k W Hk HPl (pos_of r W HP)) as (parts & cuts & E & L & HC & K).
  exists parts, cuts. split; [exact E|]. split; [exact L|]. split; [exact HC|]. intros i Hi. destruct (K i Hi) as (W' & D' & K').
  split; [exact W'|]. split; [exact D'|]. intros g HG. destruct (K' HG) as (P & A). split; [apply pos_to; auto|].
  intros c B Hc HB. destruct (A _ B (coord_hom rnd d c Hc) (proj1 (bnd_of _ _ _ W) HB)) as (A1 & A2). split; [apply bnd_of; auto|exact A2].
Qed.
Lemma c116_rational_scalar : forall p rnd (r : rspline R R) planes k, (0 < p)%nat -> nearest p rnd -> rwf r ->
  (k < length (rdegrees r))%nat -> planes_inside p planes -> positive_weights r ->
  exists parts cuts, R_SplitAtPositions_rnd_s rnd r planes k = Ok parts /\ length parts = S (length planes) /\ cuts_near p planes cuts /\
    forall i, (i <= length planes)%nat -> rwf (nth i parts r) /\ rdegrees (nth i parts r) = rdegrees r /\
      let g := gamma p (part_roundings (nth k (rdegrees r) 0%nat) (length planes) i) in
      (g < 1 -> positive_weights (nth i parts r) /\
       forall B, rat_bound_s r B -> rat_bound_s (nth i parts r) (quotient_growth g B) /\
       forall xs, length xs = length (rdegrees r) -> in_unit_box xs ->
         Rabs (rvalue (nth i parts r) xs - rvalue r (in_part cuts k i xs)) <= quotient_error g B).
Proof.
  intros p rnd r planes k Hp HR W Hk HPl HP.
  destruct (g_rsplits p rnd Hp HR (ovr := Vsc rnd) (ov := VR) eq_refl r planes k W Hk HPl (pos_of r W HP)) as (parts & cuts & E & L & HC & K).
  exists parts, cuts. split; [exact E|]. split; [exact L|]. split; [exact HC|]. intros i Hi. destruct (K i Hi) as (W' & D' & K').
  split; [exact W'|]. split; [exact D'|]. intros g HG. destruct (K' HG) as (P & A). split; [apply pos_to; auto|].
  intros B HB. destruct (A _ B (id_hom rnd) (proj1 (bnd_s _ _ W) HB)) as (A1 & A2). split; [apply bnd_s; auto|exact A2].
Qed.

(** ** Planes next to the ends *)
Lemma unit_repr p m : (0 < p)%nat -> (Z.abs m <= 2 ^ Z.of_nat p)%Z -> representable p (IZR m * / 2 ^ p).
Proof.
  intros Hp Hm. replace (/ 2 ^ p) with (powerRZ 2 (- Z.of_nat p)); [apply representable_le; auto|].
  rewrite powerRZ_neg'. rewrite <- pow_powerRZ. reflexivity.
Qed.

Lemma c116_spurious : forall p rnd d (s : spline (point R d)) k, (2 <= p)%nat -> nearest p rnd -> wf s -> (k < length (degrees s))%nat ->
  let u := / 2 ^ p in
  rnd (1 - 3 / 2 * u) = 1 - 2 * u -> rnd (1 - 5 / 2 * u) = 1 - 2 * u ->
  representable p (3 / 2 * u) /\ representable p (1 - u) /\ 0 < 3 / 2 * u < 1 - u /\ 1 - u < 1 /\
  SplitAtPositions_rnd rnd s [3 / 2 * u; 1 - u] k = Throw.
Proof.
  intros p rnd d s k Hp HR W Hk u R1' R2'.
  assert (Up : 0 < u) by (apply Rinv_0_lt_compat, pow_lt; lra).
  assert (U4 : u <= / 4).
  { apply Rinv_le_contravar; [lra|]. replace 4 with (2 ^ 2) by ring. apply Rle_pow; [lra|lia]. }
  assert (H2p : (4 <= 2 ^ Z.of_nat p)%Z) by (change 4%Z with (2 ^ 2)%Z; apply Z.pow_le_mono_r; lia).
  split.
  { replace (3 / 2 * u) with (IZR 3 * powerRZ 2 (- Z.of_nat p - 1)).
    - apply representable_le; lia.
    - replace (- Z.of_nat p - 1)%Z with (- Z.of_nat (p + 1))%Z by lia. rewrite powerRZ_neg'. rewrite <- pow_powerRZ.
      unfold u. rewrite pow_add, pow_1. field. apply pow_nonzero. lra. }
  split.
  { replace (1 - u) with (IZR (2 ^ Z.of_nat p - 1) * / 2 ^ p); [apply unit_repr; lia|].
    rewrite minus_IZR. rewrite <- pow_IZR. unfold u. field. apply pow_nonzero. lra. }
  split; [lra|]. split; [lra|].
  unfold SplitAtPositions_rnd. rewrite (SplitAtPositions_step (o := SOps_rnd rnd) (ov := Vr rnd d)).
  2:{ apply (sorted_rnd p rnd ltac:(lia)). intros [|i] Hi; cbn [length nth] in *; [lra|lia]. } 2:{ discriminate. }
  cbn [nth length Nat.sub].
  destruct (split_maj p rnd ltac:(lia) HR (ovr := Vr rnd d) (ov := Vp d) eq_refl s (ones (degrees s)) (3 / 2 * u) k W (ones_wf _ (proj1 W)) eq_refl Hk ltac:(lra))
    as (l & r & _ & _ & _ & _ & E & _).
  rewrite E. cbn [bind get nth_error for_up]. unfold split_step. cbn [get nth_error bind Nat.sub]. unfold divS. cbn [ssub s1 s0 seqb sdiv SOps_rnd].
  replace (1 - u - 3 / 2 * u) with (1 - 5 / 2 * u) by field. rewrite R1', R2'.
  destruct (Req_EM_T (1 - 2 * u) 0) as [Z|_]; [lra|]. cbn [bind].
  replace ((1 - 2 * u) / (1 - 2 * u)) with 1 by (field; lra).
  assert (E1 : rnd 1 = 1).
  { apply (nearest_exact p); auto. exists 1%Z, 0%Z. split; [lia|]. cbn. ring. }
  rewrite E1. rewrite Split_throw; [reflexivity|]. intros (_ & A). unfold slt in A. cbn [sltb s1 SOps_rnd] in A. destruct (Rlt_dec 1 1); [lra|discriminate].
Qed.

(** A rounding to nearest with the ties as above exists. *)
Lemma multiple_of_unit p y : (0 < p)%nat -> representable p y -> / 2 <= y -> exists z : Z, y = IZR z * / 2 ^ p.
Proof.
  intros Hp (m & e & Hm & ->) Hy.
  assert (P : 0 < powerRZ 2 e) by (apply powerRZ_lt; lra).
  assert (HE : (- Z.of_nat p <= e)%Z).
  { destruct (Z_le_gt_dec (- Z.of_nat p) e) as [|N]; auto. exfalso.
    assert (A : powerRZ 2 e <= powerRZ 2 (- Z.of_nat p - 1)) by (apply two_le; lia).
    replace (- Z.of_nat p - 1)%Z with (- Z.of_nat (p + 1))%Z in A by lia. rewrite powerRZ_neg' in A. rewrite <- pow_powerRZ, pow_add, pow_1 in A.
    assert (M1 : IZR m < 2 ^ p).
    { rewrite pow_IZR. apply IZR_lt. lia. }
    assert (0 < 2 ^ p) by (apply pow_lt; lra). rewrite Rinv_mult in A.
    assert (B : 2 ^ p * (/ 2 ^ p * / 2) = / 2) by (field; lra).
    assert (C : 0 < IZR m) by nra. assert (IZR m * powerRZ 2 e < 2 ^ p * (/ 2 ^ p * / 2)); [|lra].
    apply Rle_lt_trans with (IZR m * (/ 2 ^ p * / 2)); [apply Rmult_le_compat_l; lra|]. apply Rmult_lt_compat_r; [|auto].
    apply Rmult_lt_0_compat; [apply Rinv_0_lt_compat; auto|lra]. }
  exists (m * 2 ^ (e + Z.of_nat p))%Z. rewrite mult_IZR, Rmult_assoc. f_equal.
  replace e with (- Z.of_nat p + Z.of_nat (Z.to_nat (e + Z.of_nat p)))%Z at 1 by lia.
  rewrite powerRZ_add by lra. rewrite powerRZ_neg', <- !pow_powerRZ, Rmult_comm. f_equal. rewrite pow_IZR. f_equal. f_equal. lia.
Qed.
Definition even_here (p : nat) (x : R) : R :=
  if Req_EM_T x (1 - 3 / 2 * / 2 ^ p) then 1 - 2 * / 2 ^ p
  else if Req_EM_T x (1 - 5 / 2 * / 2 ^ p) then 1 - 2 * / 2 ^ p else round_to p x.
Lemma even_here_nearest p : (3 <= p)%nat -> nearest p (even_here p).
Proof.
  intros Hp x. unfold even_here. set (u := / 2 ^ p).
  assert (Up : 0 < u) by (apply Rinv_0_lt_compat, pow_lt; lra).
  assert (U8 : u <= / 8).
  { apply Rinv_le_contravar; [lra|]. replace 8 with (2 ^ 3) by ring. apply Rle_pow; [lra|lia]. }
  assert (H2p : (8 <= 2 ^ Z.of_nat p)%Z) by (change 8%Z with (2 ^ 3)%Z; apply Z.pow_le_mono_r; lia).
  assert (E2 : 1 - 2 * u = IZR (2 ^ Z.of_nat p - 2) * / 2 ^ p).
  { rewrite minus_IZR, <- pow_IZR. fold u. rewrite Rmult_minus_distr_r. unfold u. rewrite Rinv_r by (apply pow_nonzero; lra). ring. }
  assert (R2 : representable p (1 - 2 * u)) by (rewrite E2; apply unit_repr; lia).
  assert (EU : IZR (2 ^ Z.of_nat p) * u = 1) by (rewrite <- pow_IZR; unfold u; apply Rinv_r; apply pow_nonzero; lra).
  assert (Far : forall k : Z, (k = -3 \/ k = -5)%Z -> forall y, representable p y -> u / 2 <= Rabs (y - (1 + IZR k / 2 * u))).
  { intros k Hk y Hy. assert (K5 : -5 <= IZR k <= -3) by (destruct Hk as [-> | ->]; lra).
    destruct (Rlt_dec y (/ 2)) as [L|L].
    - rewrite Rabs_left; nra.
    - destruct (multiple_of_unit p y ltac:(lia) Hy ltac:(lra)) as (z & ->). fold u.
      replace (IZR z * u - (1 + IZR k / 2 * u)) with (IZR (2 * (z - 2 ^ Z.of_nat p) - k) * (u / 2)).
      2:{ rewrite minus_IZR, mult_IZR, minus_IZR. revert EU. generalize (IZR (2 ^ Z.of_nat p)). intros q EU. replace 1 with (q * u) by exact EU. field. }
      rewrite Rabs_mult, (Rabs_right (u / 2)) by lra. rewrite <- abs_IZR.
      assert (1 <= IZR (Z.abs (2 * (z - 2 ^ Z.of_nat p) - k))) by (apply IZR_le; lia). nra. }
  destruct (Req_EM_T x (1 - 3 / 2 * u)) as [->|N1].
  { split; [exact R2|]. intros y Hy. specialize (Far (-3)%Z ltac:(lia) y Hy). replace (1 + -3 / 2 * u) with (1 - 3 / 2 * u) in Far by field.
    replace (1 - 2 * u - (1 - 3 / 2 * u)) with (- (u / 2)) by field. rewrite Rabs_Ropp, (Rabs_right (u / 2)) by lra. exact Far. }
  destruct (Req_EM_T x (1 - 5 / 2 * u)) as [->|N2].
  { split; [exact R2|]. intros y Hy. specialize (Far (-5)%Z ltac:(lia) y Hy). replace (1 + -5 / 2 * u) with (1 - 5 / 2 * u) in Far by field.
    replace (1 - 2 * u - (1 - 5 / 2 * u)) with (u / 2) by field. rewrite (Rabs_right (u / 2)) by lra. exact Far. }
  apply (nearest_round_to p ltac:(lia) x).
Qed.
