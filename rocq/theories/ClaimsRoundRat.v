(** C92-C96: rounding errors of the operations on rational splines. *)
From Coq Require Import Arith Lia List ZArith NArith Bool Reals Lra Psatz.
From Verif Require Import Prelude Scalar Spec SpecSpline SpecRational Sums Order Coord ModelBasis ModelSpline ModelPoint ModelRational
  ModelRound ModelRoundMul SpecRound SpecRoundMul ProofIndex ProofBasis ProofEval ProofElevate ProofArith ProofSplit ProofMul ProofCompose
  ProofRational ProofRational2 ProofCasteljau ProofRaw ProofRound ProofRoundEval ProofRoundOps ProofRawMul ProofRoundMul ProofRoundCompose
  ClaimsB ClaimsE ClaimsU ClaimsX ClaimsRoundOps ClaimsRoundMul ModelRoundRat SpecRoundRat ProofRoundRat ProofRoundRat2 ProofRoundRat3.
Import ListNotations.
Local Open Scope R_scope.

Notation Vsc rnd := (VOps_scalar R (o := SOps_rnd rnd)).
Notation Vp d := (VOps_point R d (o := SOps_R)).
Lemma pos_of {V} (r : rspline R V) : rwf r -> positive_weights r -> positive (weight_function r).
Proof.
  intros (_ & (_ & _ & _ & L) & _) H i Hi. unfold positive_weights in H. rewrite Forall_forall in H. apply H, nth_In. lia.
Qed.
Lemma pos_to {V} (r : rspline R V) : rwf r -> positive (weight_function r) -> positive_weights r.
Proof.
  intros (_ & (_ & _ & _ & L) & _) H. unfold positive_weights. rewrite Forall_forall. intros w Hw.
  destruct (In_nth _ _ 0 Hw) as (i & Hi & <-). apply H. lia.
Qed.
Lemma bnd_of {d} (r : rspline R (point R d)) c B : rwf r ->
  rat_bound r c B <-> bounded (ov := Vp d) (fun q => coord d q c) B (weighted_spline r) (weight_function r).
Proof. intros (_ & _ & D). unfold rat_bound, bounded, rdegrees. rewrite D. reflexivity. Qed.
Lemma bnd_s (r : rspline R R) B : rwf r -> rat_bound_s r B <-> bounded (ov := VR) (fun x : R => x) B (weighted_spline r) (weight_function r).
Proof. intros (_ & _ & D). unfold rat_bound_s, bounded, rdegrees. rewrite D. reflexivity. Qed.
Lemma coord_homs rnd d c : (c < d)%nat -> homs rnd (ov := Vp d) (ovr := Vr rnd d) (fun q => coord d q c).
Proof.
  intros Hc. split; [apply coord_hom; auto|]. split; [intros; apply coord_sub_rnd; auto|intros; apply (coord_sub (o := SOps_R))].
Qed.

Lemma c92_split : forall p rnd d (r : rspline R (point R d)) x k, (0 < p)%nat -> nearest p rnd -> rwf r ->
  (k < length (rdegrees r))%nat -> 0 < x < 1 -> positive_weights r ->
  exists a b, R_SplitAtPosition_rnd rnd r x k = Ok [a; b] /\ rwf a /\ rwf b /\ rdegrees a = rdegrees r /\ rdegrees b = rdegrees r /\
    let g := gamma p (3 * nth k (rdegrees r) 0%nat) in
    (g < 1 -> positive_weights a /\ positive_weights b /\
     forall c B, (c < d)%nat -> rat_bound r c B ->
       rat_bound a c (quotient_growth g B) /\ rat_bound b c (quotient_growth g B) /\
       forall xs, length xs = length (rdegrees r) -> in_unit_box xs ->
         Rabs (coord d (rvalue a xs) c - coord d (rvalue r (upd_list xs k (x * nth k xs 0))) c) <= quotient_error g B /\
         Rabs (coord d (rvalue b xs) c - coord d (rvalue r (upd_list xs k (x + (1 - x) * nth k xs 0))) c) <= quotient_error g B).
Proof.
  intros p rnd d r x k Hp HR W Hk Hx HP.
  destruct (g_split p rnd Hp HR (ovr := Vr rnd d) (ov := Vp d) eq_refl r x k W Hk Hx (pos_of r W HP)) as (a & b & E & Wa & Wb & Da & Db & K).
  exists a, b. do 5 (split; [assumption|]). intros g HG. destruct (K HG) as (Pa & Pb & K2).
  split; [apply pos_to; auto|]. split; [apply pos_to; auto|]. intros c B Hc HBd.
  destruct (K2 _ B (coord_hom rnd d c Hc) (proj1 (bnd_of _ _ _ W) HBd)) as ((A1 & A2) & (B1 & B2)).
  split; [apply bnd_of; auto|]. split; [apply bnd_of; auto|]. intros xs HX HU. split; [apply A2; auto|apply B2; auto].
Qed.

Lemma c92_split_scalar : forall p rnd (r : rspline R R) x k, (0 < p)%nat -> nearest p rnd -> rwf r ->
  (k < length (rdegrees r))%nat -> 0 < x < 1 -> positive_weights r ->
  exists a b, R_SplitAtPosition_rnd_s rnd r x k = Ok [a; b] /\ rwf a /\ rwf b /\ rdegrees a = rdegrees r /\ rdegrees b = rdegrees r /\
    let g := gamma p (3 * nth k (rdegrees r) 0%nat) in
    (g < 1 -> positive_weights a /\ positive_weights b /\
     forall B, rat_bound_s r B ->
       rat_bound_s a (quotient_growth g B) /\ rat_bound_s b (quotient_growth g B) /\
       forall xs, length xs = length (rdegrees r) -> in_unit_box xs ->
         Rabs (rvalue a xs - rvalue r (upd_list xs k (x * nth k xs 0))) <= quotient_error g B /\
         Rabs (rvalue b xs - rvalue r (upd_list xs k (x + (1 - x) * nth k xs 0))) <= quotient_error g B).
Proof.
  intros p rnd r x k Hp HR W Hk Hx HP.
  destruct (g_split p rnd Hp HR (ovr := Vsc rnd) (ov := VR) eq_refl r x k W Hk Hx (pos_of r W HP)) as (a & b & E & Wa & Wb & Da & Db & K).
  exists a, b. do 5 (split; [assumption|]). intros g HG. destruct (K HG) as (Pa & Pb & K2).
  split; [apply pos_to; auto|]. split; [apply pos_to; auto|]. intros B HBd.
  destruct (K2 _ B (id_hom rnd) (proj1 (bnd_s _ _ W) HBd)) as ((A1 & A2) & (B1 & B2)).
  split; [apply bnd_s; auto|]. split; [apply bnd_s; auto|]. intros xs HX HU. split; [apply A2; auto|apply B2; auto].
Qed.

Lemma c93_elevate : forall p rnd d (r : rspline R (point R d)) k, (0 < p)%nat -> nearest p rnd -> rwf r ->
  (k < length (rdegrees r))%nat -> positive_weights r -> (Z.of_nat (nth k (rdegrees r) 0%nat + 1) < 2 ^ Z.of_nat p)%Z ->
  (Z.of_nat (n_coeffs (upd_list (rdegrees r) k (S (nth k (rdegrees r) 0%nat)))) < 2 ^ 31)%Z ->
  exists e, R_OrderElevate_rnd rnd r k = Ok e /\ rwf e /\ rdegrees e = upd_list (rdegrees r) k (S (nth k (rdegrees r) 0%nat)) /\
    let g := gamma p (2 * nth k (rdegrees r) 0%nat + 3) in
    (g < 1 -> positive_weights e /\
     forall c B, (c < d)%nat -> rat_bound r c B ->
       rat_bound e c (quotient_growth g B) /\
       forall xs, length xs = length (rdegrees r) -> in_unit_box xs ->
         Rabs (coord d (rvalue e xs) c - coord d (rvalue r xs) c) <= quotient_error g B).
Proof.
  intros p rnd d r k Hp HR W Hk HP Hq Hsz.
  destruct (g_elevate p rnd Hp HR (ovr := Vr rnd d) (ov := Vp d) eq_refl r k W Hk (pos_of r W HP) Hq Hsz) as (e & E & We & De & K).
  exists e. do 3 (split; [assumption|]). intros g HG. destruct (K HG) as (Pe & K2).
  split; [apply pos_to; auto|]. intros c B Hc HBd.
  destruct (K2 _ B (coord_hom rnd d c Hc) (proj1 (bnd_of _ _ _ W) HBd)) as (A1 & A2).
  split; [apply bnd_of; auto|]. exact A2.
Qed.

Lemma c93_elevate_scalar : forall p rnd (r : rspline R R) k, (0 < p)%nat -> nearest p rnd -> rwf r ->
  (k < length (rdegrees r))%nat -> positive_weights r -> (Z.of_nat (nth k (rdegrees r) 0%nat + 1) < 2 ^ Z.of_nat p)%Z ->
  (Z.of_nat (n_coeffs (upd_list (rdegrees r) k (S (nth k (rdegrees r) 0%nat)))) < 2 ^ 31)%Z ->
  exists e, R_OrderElevate_rnd_s rnd r k = Ok e /\ rwf e /\ rdegrees e = upd_list (rdegrees r) k (S (nth k (rdegrees r) 0%nat)) /\
    let g := gamma p (2 * nth k (rdegrees r) 0%nat + 3) in
    (g < 1 -> positive_weights e /\
     forall B, rat_bound_s r B ->
       rat_bound_s e (quotient_growth g B) /\
       forall xs, length xs = length (rdegrees r) -> in_unit_box xs ->
         Rabs (rvalue e xs - rvalue r xs) <= quotient_error g B).
Proof.
  intros p rnd r k Hp HR W Hk HP Hq Hsz.
  destruct (g_elevate p rnd Hp HR (ovr := Vsc rnd) (ov := VR) eq_refl r k W Hk (pos_of r W HP) Hq Hsz) as (e & E & We & De & K).
  exists e. do 3 (split; [assumption|]). intros g HG. destruct (K HG) as (Pe & K2).
  split; [apply pos_to; auto|]. intros B HBd.
  destruct (K2 _ B (id_hom rnd) (proj1 (bnd_s _ _ W) HBd)) as (A1 & A2).
  split; [apply bnd_s; auto|]. exact A2.
Qed.

(** Products. *)
Lemma c94_product : forall p rnd MAXB (r s : rspline R R), (0 < p)%nat -> nearest p rnd -> (MAXB <= 68)%nat -> rwf r -> rwf s ->
  length (rdegrees s) = length (rdegrees r) -> Forall (fun k => k < MAXB)%nat (map2 Nat.add (rdegrees r) (rdegrees s)) ->
  positive_weights r -> positive_weights s ->
  exists q, R_mul_rnd_ss rnd MAXB r s = Ok q /\ rwf q /\ rdegrees q = map2 Nat.add (rdegrees r) (rdegrees s) /\
    let g := gamma p (product_roundings (rdegrees r) (rdegrees s)) in
    (g < 1 -> positive_weights q /\
     forall A B, rat_bound_s r A -> rat_bound_s s B ->
       rat_bound_s q (quotient_growth g (A * B)) /\
       forall xs, length xs = length (rdegrees r) -> in_unit_box xs ->
         Rabs (rvalue q xs - rvalue r xs * rvalue s xs) <= quotient_error g (A * B)).
Proof.
  intros p rnd MAXB r s Hp HR HM W Ws HL HMd HP HPs.
  pose proof (pos_of r W HP) as P1. pose proof (pos_of s Ws HPs) as P2. pose proof W as (Wu & Ww & Dw). pose proof Ws as (Wus & Wws & Dws).
  destruct (g_mul p rnd Hp HR (ovr := Vsc rnd) (ov := VR) eq_refl MAXB HM (o1 := VR) (o2 := VR) (smul (SOps := SOps_rnd rnd)) (smul (SOps := SOps_R)) (BL := Bilinear_ss) 1 (le_n 1) r s W Ws HL HMd P1 P2)
    as (q & E & Wq & Dq & K).
  exists q. do 3 (split; [assumption|]). cbv zeta in K |- *.
  replace (1 + product_roundings (rdegrees r) (rdegrees s) - 1)%nat with (product_roundings (rdegrees r) (rdegrees s)) in K by lia.
  set (g := gamma p (product_roundings (rdegrees r) (rdegrees s))) in *. intros HG. destruct (K HG) as (Pq & K2). split; [apply pos_to; auto|].
  intros A B HA HBd. destruct (K2 (fun x => x) (A * B) (id_hom rnd)) as (A1 & A2).
  { intros i j. cbn [smul SOps_rnd SOps_R].
    replace (A * B * (nth i (control_points (weight_function r)) 0 * nth j (control_points (weight_function s)) 0)) with
      ((A * nth i (control_points (weight_function r)) 0) * (B * nth j (control_points (weight_function s)) 0)) by ring.
    apply (Er_r p rnd Hp HR). apply (Er_m p Hp 0 0); apply Er_of.
    - apply (nth_bounded p Hp MAXB HM (ow := VR) (fun x => x) _ _ A i Wu Ww (eq_sym Dw) eq_refl P1). apply bnd_s; auto.
    - apply (nth_bounded p Hp MAXB HM (ow := VR) (fun x => x) _ _ B j Wus Wws (eq_sym Dws) eq_refl P2). apply bnd_s; auto. }
  split; [apply bnd_s; auto|]. exact A2.
Qed.

Lemma c94_product_point_scalar : forall p rnd MAXB d (r : rspline R (point R d)) (s : rspline R R), (0 < p)%nat -> nearest p rnd -> (MAXB <= 68)%nat -> rwf r -> rwf s ->
  length (rdegrees s) = length (rdegrees r) -> Forall (fun k => k < MAXB)%nat (map2 Nat.add (rdegrees r) (rdegrees s)) ->
  positive_weights r -> positive_weights s ->
  exists q, R_mul_rnd_ps rnd MAXB r s = Ok q /\ rwf q /\ rdegrees q = map2 Nat.add (rdegrees r) (rdegrees s) /\
    let g := gamma p (product_roundings (rdegrees r) (rdegrees s)) in
    (g < 1 -> positive_weights q /\
     forall c A B, (c < d)%nat -> rat_bound r c A -> rat_bound_s s B ->
       rat_bound q c (quotient_growth g (A * B)) /\
       forall xs, length xs = length (rdegrees r) -> in_unit_box xs ->
         Rabs (coord d (rvalue q xs) c - rvalue s xs * coord d (rvalue r xs) c) <= quotient_error g (A * B)).
Proof.
  intros p rnd MAXB d r s Hp HR HM W Ws HL HMd HP HPs.
  pose proof (pos_of r W HP) as P1. pose proof (pos_of s Ws HPs) as P2. pose proof W as (Wu & Ww & Dw). pose proof Ws as (Wus & Wws & Dws).
  destruct (g_mul p rnd Hp HR (ovr := Vr rnd d) (ov := Vp d) eq_refl MAXB HM (o1 := Vp d) (o2 := VR) (fun q c => vscale (VOps := Vr rnd d) c q) (fun q c => vscale (VOps := Vp d) c q) (BL := Bilinear_ps) 1 (le_n 1) r s W Ws HL HMd P1 P2)
    as (q & E & Wq & Dq & K).
  exists q. do 3 (split; [assumption|]). cbv zeta in K |- *.
  replace (1 + product_roundings (rdegrees r) (rdegrees s) - 1)%nat with (product_roundings (rdegrees r) (rdegrees s)) in K by lia.
  set (g := gamma p (product_roundings (rdegrees r) (rdegrees s))) in *. intros HG. destruct (K HG) as (Pq & K2). split; [apply pos_to; auto|].
  intros c A B Hc HA HBd. destruct (K2 (fun x => coord d x c) (A * B) (coord_hom rnd d c Hc)) as (A1 & A2).
  { intros i j. rewrite (coord_scale_rnd rnd d _ _ c Hc), (coord_scale (o := SOps_R)). cbn [smul SOps_R].
    replace (A * B * (nth i (control_points (weight_function r)) 0 * nth j (control_points (weight_function s)) 0)) with
      ((B * nth j (control_points (weight_function s)) 0) * (A * nth i (control_points (weight_function r)) 0)) by ring.
    apply (Er_r p rnd Hp HR). apply (Er_m p Hp 0 0); apply Er_of.
    - apply (nth_bounded p Hp MAXB HM (ow := VR) (fun x => x) _ _ B j Wus Wws (eq_sym Dws) eq_refl P2). apply bnd_s; auto.
    - apply (nth_bounded p Hp MAXB HM (ow := Vp d) (fun x => coord d x c) _ _ A i Wu Ww (eq_sym Dw) (coord_0 (o := SOps_R) d c) P1). apply bnd_of; auto. }
  split; [apply bnd_of; auto|]. intros xs HX HU. specialize (A2 xs HX HU). rewrite (coord_scale (o := SOps_R)) in A2. exact A2.
Qed.

Lemma c94_product_dot : forall p rnd MAXB d (r s : rspline R (point R d)), (0 < p)%nat -> nearest p rnd -> (MAXB <= 68)%nat -> rwf r -> rwf s ->
  length (rdegrees s) = length (rdegrees r) -> Forall (fun k => k < MAXB)%nat (map2 Nat.add (rdegrees r) (rdegrees s)) ->
  positive_weights r -> positive_weights s ->
  exists q, R_mul_rnd_pp rnd MAXB r s = Ok q /\ rwf q /\ rdegrees q = map2 Nat.add (rdegrees r) (rdegrees s) /\
    let g := gamma p (d + product_roundings (rdegrees r) (rdegrees s)) in
    (g < 1 -> positive_weights q /\
     forall A B, 0 <= A -> 0 <= B -> (forall c, (c < d)%nat -> rat_bound r c A) -> (forall c, (c < d)%nat -> rat_bound s c B) ->
       rat_bound_s q (quotient_growth g (INR d * (A * B))) /\
       forall xs, length xs = length (rdegrees r) -> in_unit_box xs ->
         exists x, point_dot (rvalue r xs) (rvalue s xs) = Ok x /\ Rabs (rvalue q xs - x) <= quotient_error g (INR d * (A * B))).
Proof.
  intros p rnd MAXB d r s Hp HR HM W Ws HL HMd HP HPs.
  pose proof (pos_of r W HP) as P1. pose proof (pos_of s Ws HPs) as P2. pose proof W as (Wu & Ww & Dw). pose proof Ws as (Wus & Wws & Dws).
  destruct (g_mul p rnd Hp HR (ovr := Vsc rnd) (ov := VR) eq_refl MAXB HM (o1 := Vp d) (o2 := Vp d) (dot_rnd rnd d) (dot (T := R) d) (BL := Bilinear_dot d) (d + 1) ltac:(lia) r s W Ws HL HMd P1 P2)
    as (q & E & Wq & Dq & K).
  exists q. do 3 (split; [assumption|]). cbv zeta in K |- *.
  replace (d + 1 + product_roundings (rdegrees r) (rdegrees s) - 1)%nat with (d + product_roundings (rdegrees r) (rdegrees s))%nat in K by lia.
  set (g := gamma p (d + product_roundings (rdegrees r) (rdegrees s))) in *. intros HG. destruct (K HG) as (Pq & K2). split; [apply pos_to; auto|].
  intros A B A0 B0 HA HBd. destruct (K2 (fun x => x) (INR d * (A * B)) (id_hom rnd)) as (A1 & A2).
  { intros i j.
    replace (INR d * (A * B) * (nth i (control_points (weight_function r)) 0 * nth j (control_points (weight_function s)) 0)) with
      (INR d * ((A * nth i (control_points (weight_function r)) 0) * (B * nth j (control_points (weight_function s)) 0))) by ring.
    pose proof (nth_nonneg p Hp MAXB HM _ i Ww P1) as N1. pose proof (nth_nonneg p Hp MAXB HM _ j Wws P2) as N2.
    apply dot_err; auto; try (apply Rmult_le_pos; auto); intros c Hc.
    - apply (nth_bounded p Hp MAXB HM (ow := Vp d) (fun x => coord d x c) _ _ A i Wu Ww (eq_sym Dw) (coord_0 (o := SOps_R) d c) P1). apply bnd_of; auto.
    - apply (nth_bounded p Hp MAXB HM (ow := Vp d) (fun x => coord d x c) _ _ B j Wus Wws (eq_sym Dws) (coord_0 (o := SOps_R) d c) P2). apply bnd_of; auto. }
  split; [apply bnd_s; auto|]. intros xs HX HU. exists (dot d (rvalue r xs) (rvalue s xs)). split; [apply (dot_loop (T := R))|exact (A2 xs HX HU)].
Qed.

Lemma c95_sum : forall p rnd MAXB fuel d (r s : rspline R (point R d)), (0 < p)%nat -> nearest p rnd -> (MAXB <= 68)%nat -> (2 <= fuel)%nat -> rwf r -> rwf s ->
  length (rdegrees s) = length (rdegrees r) -> Forall (fun k => k < MAXB)%nat (map2 Nat.add (rdegrees r) (rdegrees s)) ->
  positive_weights r -> positive_weights s ->
  exists q, R_add_rnd rnd MAXB fuel r s = Ok q /\ R_add_assign_rnd rnd MAXB fuel r s = Ok q /\ rwf q /\
    (rdegrees q = rdegrees r \/ rdegrees q = map2 Nat.add (rdegrees r) (rdegrees s)) /\
    let g := gamma p (product_roundings (rdegrees r) (rdegrees s) + 1) in
    (g < 1 -> positive_weights q /\
     forall c A B, (c < d)%nat -> rat_bound r c A -> rat_bound s c B ->
       rat_bound q c (quotient_growth g (A + B)) /\
       forall xs, length xs = length (rdegrees r) -> in_unit_box xs ->
         Rabs (coord d (rvalue q xs) c - (coord d (rvalue r xs) c + coord d (rvalue s xs) c)) <= quotient_error g (A + B)).
Proof.
  intros p rnd MAXB fuel d r s Hp HR HM Hf W Ws HL HMd HP HPs.
  destruct (proj1 (g_sum p rnd Hp HR (ovr := Vr rnd d) (ov := Vp d) eq_refl MAXB HM fuel r s W Ws HL Hf HMd (pos_of r W HP) (pos_of s Ws HPs))) as (q & E & E2 & Wq & Dq & K).
  exists q. do 4 (split; [assumption|]). cbv zeta in K |- *. set (g := gamma p (product_roundings (rdegrees r) (rdegrees s) + 1)) in *.
  intros HG. destruct (K HG) as (Pq & K2). split; [apply pos_to; auto|].
  intros c A B Hc HA HBd. destruct (K2 (fun x => coord d x c) A B (coord_homs rnd d c Hc) (proj1 (bnd_of _ _ _ W) HA) (proj1 (bnd_of _ _ _ Ws) HBd)) as (A1 & A2).
  split; [apply bnd_of; auto|]. intros xs HX HU. specialize (A2 xs HX HU). rewrite (coord_add (o := SOps_R)) in A2. exact A2.
Qed.

Lemma c95_difference : forall p rnd MAXB fuel d (r s : rspline R (point R d)), (0 < p)%nat -> nearest p rnd -> (MAXB <= 68)%nat -> (2 <= fuel)%nat -> rwf r -> rwf s ->
  length (rdegrees s) = length (rdegrees r) -> Forall (fun k => k < MAXB)%nat (map2 Nat.add (rdegrees r) (rdegrees s)) ->
  positive_weights r -> positive_weights s ->
  exists q, R_sub_rnd rnd MAXB fuel r s = Ok q /\ R_sub_assign_rnd rnd MAXB fuel r s = Ok q /\ rwf q /\
    (rdegrees q = rdegrees r \/ rdegrees q = map2 Nat.add (rdegrees r) (rdegrees s)) /\
    let g := gamma p (product_roundings (rdegrees r) (rdegrees s) + 1) in
    (g < 1 -> positive_weights q /\
     forall c A B, (c < d)%nat -> rat_bound r c A -> rat_bound s c B ->
       rat_bound q c (quotient_growth g (A + B)) /\
       forall xs, length xs = length (rdegrees r) -> in_unit_box xs ->
         Rabs (coord d (rvalue q xs) c - (coord d (rvalue r xs) c - coord d (rvalue s xs) c)) <= quotient_error g (A + B)).
Proof.
  intros p rnd MAXB fuel d r s Hp HR HM Hf W Ws HL HMd HP HPs.
  destruct (proj2 (g_sum p rnd Hp HR (ovr := Vr rnd d) (ov := Vp d) eq_refl MAXB HM fuel r s W Ws HL Hf HMd (pos_of r W HP) (pos_of s Ws HPs))) as (q & E & E2 & Wq & Dq & K).
  exists q. do 4 (split; [assumption|]). cbv zeta in K |- *. set (g := gamma p (product_roundings (rdegrees r) (rdegrees s) + 1)) in *.
  intros HG. destruct (K HG) as (Pq & K2). split; [apply pos_to; auto|].
  intros c A B Hc HA HBd. destruct (K2 (fun x => coord d x c) A B (coord_homs rnd d c Hc) (proj1 (bnd_of _ _ _ W) HA) (proj1 (bnd_of _ _ _ Ws) HBd)) as (A1 & A2).
  split; [apply bnd_of; auto|]. intros xs HX HU. specialize (A2 xs HX HU). rewrite (coord_sub (o := SOps_R)) in A2. exact A2.
Qed.

Lemma c96_compose : forall p rnd MAXB d (outer : rspline R (point R d)) (inner : spline (point R (length (rdegrees outer)))),
  (0 < p)%nat -> nearest p rnd -> (MAXB <= 68)%nat -> rwf outer -> wf inner ->
  (forall q k, In q (control_points inner) -> (k < length (rdegrees outer))%nat -> 0 <= coord _ q k <= 1) ->
  Forall (fun q => list_sum (rdegrees outer) * q < MAXB)%nat (degrees inner) ->
  Forall (fun q => q < MAXB)%nat (rdegrees outer) -> positive_weights outer ->
  exists c, Compose_RP_rnd rnd MAXB outer inner = Ok c /\ rwf c /\ rdegrees c = map (Nat.mul (list_sum (rdegrees outer))) (degrees inner) /\
    let g := gamma p (compose_roundings (rdegrees outer) (degrees inner)) in
    (g < 1 -> positive_weights c /\
     forall k B, (k < d)%nat -> rat_bound outer k B ->
       rat_bound c k (quotient_growth g B) /\
       forall xs, length xs = length (degrees inner) -> in_unit_box xs ->
         Rabs (coord d (rvalue c xs) k - coord d (rvalue outer (plist _ (value_at inner xs))) k) <= quotient_error g B).
Proof.
  intros p rnd MAXB d outer inner Hp HR HM W Wi HC HF HMd HP.
  destruct (g_comp p rnd Hp HR (ovr := Vr rnd d) (ov := Vp d) eq_refl MAXB HM outer inner W Wi HC HF HMd (pos_of outer W HP)) as (q & E & We & De & K).
  exists q. do 3 (split; [assumption|]). intros g HG. destruct (K HG) as (Pe & K2).
  split; [apply pos_to; auto|]. intros k B Hc HBd.
  destruct (K2 _ B (coord_hom rnd d k Hc) (proj1 (bnd_of _ _ _ W) HBd)) as (A1 & A2).
  split; [apply bnd_of; auto|]. exact A2.
Qed.

Lemma c96_compose_scalar : forall p rnd MAXB (outer : rspline R R) (inner : spline (point R (length (rdegrees outer)))),
  (0 < p)%nat -> nearest p rnd -> (MAXB <= 68)%nat -> rwf outer -> wf inner ->
  (forall q k, In q (control_points inner) -> (k < length (rdegrees outer))%nat -> 0 <= coord _ q k <= 1) ->
  Forall (fun q => list_sum (rdegrees outer) * q < MAXB)%nat (degrees inner) ->
  Forall (fun q => q < MAXB)%nat (rdegrees outer) -> positive_weights outer ->
  exists c, Compose_RP_rnd_s rnd MAXB outer inner = Ok c /\ rwf c /\ rdegrees c = map (Nat.mul (list_sum (rdegrees outer))) (degrees inner) /\
    let g := gamma p (compose_roundings (rdegrees outer) (degrees inner)) in
    (g < 1 -> positive_weights c /\
     forall B, rat_bound_s outer B ->
       rat_bound_s c (quotient_growth g B) /\
       forall xs, length xs = length (degrees inner) -> in_unit_box xs ->
         Rabs (rvalue c xs - rvalue outer (plist _ (value_at inner xs))) <= quotient_error g B).
Proof.
  intros p rnd MAXB outer inner Hp HR HM W Wi HC HF HMd HP.
  destruct (g_comp p rnd Hp HR (ovr := Vsc rnd) (ov := VR) eq_refl MAXB HM outer inner W Wi HC HF HMd (pos_of outer W HP)) as (q & E & We & De & K).
  exists q. do 3 (split; [assumption|]). intros g HG. destruct (K HG) as (Pe & K2).
  split; [apply pos_to; auto|]. intros B HBd.
  destruct (K2 _ B (id_hom rnd) (proj1 (bnd_s _ _ W) HBd)) as (A1 & A2).
  split; [apply bnd_s; auto|]. exact A2.
Qed.
