(** Proofs of C81-C84. *)
From Coq Require Import Arith Lia List ZArith NArith Bool Reals Lra Psatz.
From Verif Require Import Prelude Scalar Spec SpecSpline Sums Order Coord ModelBasis ModelSpline
  ModelRound SpecRound SpecSeam ProofIndex ProofBasis ProofEval ProofElevate ProofArith ProofSplit ProofDeriv ProofDerivSpline
  ProofCasteljau ProofRound ProofRoundEval ProofRaw ProofSeam ProofRoundOps ClaimsN ClaimsU.
Import ListNotations.
Local Open Scope R_scope.

(** Instances of the error lemmas: one coordinate of points, no coordinate at all, scalars. *)
Lemma rnd_0 p rnd : nearest p rnd -> rnd 0 = 0.
Proof. intros H. apply (nearest_exact p); auto. apply repr_0. Qed.
Ltac hom := intros;
  first [ apply (coord_add (o := SOps_R)) | apply (coord_scale (o := SOps_R)) | apply (coord_sub (o := SOps_R))
        | apply coord_scale_rnd; assumption
        | apply (coord_pmap2 (o := SOps_R) _ (fun x y : R => _)); assumption
        | reflexivity ].
Lemma coord_add_rnd rnd d (a b : point R d) k : (k < d)%nat -> coord d (vadd (VOps := Vr rnd d) a b) k = rnd (coord d a k + coord d b k).
Proof. intros Hk. apply (coord_pmap2 (o := SOps_R) d (fun x y => rnd (x + y)) a b k Hk). Qed.
Lemma coord_sub_rnd rnd d (a b : point R d) k : (k < d)%nat -> coord d (vsub (VOps := Vr rnd d) a b) k = rnd (coord d a k - coord d b k).
Proof. intros Hk. apply (coord_pmap2 (o := SOps_R) d (fun x y => rnd (x - y)) a b k Hk). Qed.
Lemma below_coord {d} (s : spline (point R d)) c B : wf s -> coord_bound s c B -> below (fun q => coord d q c) (control_points s) B.
Proof.
  intros Hw H. apply (fl_nth (ov := VOps_point R d) (fun q => coord d q c)). intros i Hi. apply H. rewrite (proj2 (proj2 (proj2 Hw))) in Hi. exact Hi.
Qed.
Lemma below_coeff (s : spline R) B : wf s -> coeff_bound s B -> below (fun q => q) (control_points s) B.
Proof.
  intros Hw H. apply (fl_nth (ov := VOps_scalar R (o := SOps_R)) (fun q => q)). intros i Hi. apply H. rewrite (proj2 (proj2 (proj2 Hw))) in Hi. exact Hi.
Qed.
Lemma below_0 {V} (c : list V) : below (fun _ => 0) c 0.
Proof. apply Forall_forall. intros. rewrite Rabs_R0. lra. Qed.
Lemma add0 rnd p : nearest p rnd -> 0 = rnd (0 + 0).
Proof. intros H. rewrite Rplus_0_r. symmetry. apply (rnd_0 p); auto. Qed.
Lemma sub0 rnd p : nearest p rnd -> 0 = rnd (0 - 0).
Proof. intros H. rewrite Rminus_0_r. symmetry. apply (rnd_0 p); auto. Qed.
Lemma mul0 rnd p c : nearest p rnd -> 0 = rnd (c * 0).
Proof. intros H. rewrite Rmult_0_r. symmetry. apply (rnd_0 p); auto. Qed.
Ltac nohom HR := intros; first [ apply (add0 _ _ HR) | apply (mul0 _ _ _ HR) | apply (sub0 _ _ HR) | apply below_0 | lra ].


(** ** C81 *)
Lemma c81_elevate : forall p rnd d (s : spline (point R d)) k, (0 < p)%nat -> nearest p rnd ->
  wf s -> (k < length (degrees s))%nat ->
  (Z.of_nat (nth k (degrees s) 0%nat + 1) < 2 ^ Z.of_nat p)%Z ->
  (Z.of_nat (n_coeffs (upd_list (degrees s) k (S (nth k (degrees s) 0%nat)))) < 2 ^ 31)%Z ->
  exists e e0, OrderElevate_rnd rnd s k = Ok e /\ OrderElevate s k = Ok e0 /\ wf e /\
    degrees e = upd_list (degrees s) k (S (nth k (degrees s) 0%nat)) /\ degrees e0 = degrees e /\
    forall c B, (c < d)%nat -> coord_bound s c B ->
      (forall i, (i < n_coeffs (degrees e))%nat ->
        Rabs (coord d (nth i (control_points e) v0) c - coord d (nth i (control_points e0) v0) c) <= 3 * gamma p 5 * B) /\
      forall xs, length xs = length (degrees s) -> in_unit_box xs ->
        Rabs (coord d (value_at e xs) c - coord d (value_at s xs) c) <= 3 * gamma p 5 * B.
Proof.
  intros p rnd d s k Hp HR Hw Hk Hq Hs.
  destruct (elevate_err p rnd Hp HR (V := point R d) (ovr := Vr rnd d) (fun _ => 0) ltac:(nohom HR) ltac:(nohom HR) ltac:(nohom HR) ltac:(nohom HR) eq_refl s k 0 Hw Hk Hq Hs (below_0 _))
    as (e & e0 & E & E0 & We & We0 & De & De0 & SV & _).
  exists e, e0. do 5 (split; [assumption|]). intros c B Hc HB.
  destruct (elevate_err p rnd Hp HR (V := point R d) (ovr := Vr rnd d) (fun q => coord d q c) ltac:(hom) ltac:(hom) (fun a b => coord_add_rnd rnd d a b c Hc) (fun x a => coord_scale_rnd rnd d x a c Hc) eq_refl s k B Hw Hk Hq Hs (below_coord s c B Hw HB))
    as (e' & e0' & E' & E0' & _ & _ & _ & _ & _ & _ & K).
  rewrite E in E'. injection E' as <-. rewrite E0 in E0'. injection E0' as <-.
  assert (K' : forall i, (i < n_coeffs (degrees e))%nat ->
        Rabs (coord d (nth i (control_points e) v0) c - coord d (nth i (control_points e0) v0) c) <= 3 * gamma p 5 * B).
  { intros i Hi. specialize (K i Hi). lra. }
  split; [exact K'|]. intros xs HX HU. rewrite <- (SV xs HX).
  assert (HX' : length xs = length (degrees e0)) by (rewrite De0, De, length_upd; exact HX).
  apply (close_values (ov := VOps_point R d) (fun q => coord d q c)); auto; try hom. rewrite De0. exact K'.
Qed.
Lemma c81_elevate_scalar : forall p rnd (s : spline R) k, (0 < p)%nat -> nearest p rnd ->
  wf s -> (k < length (degrees s))%nat ->
  (Z.of_nat (nth k (degrees s) 0%nat + 1) < 2 ^ Z.of_nat p)%Z ->
  (Z.of_nat (n_coeffs (upd_list (degrees s) k (S (nth k (degrees s) 0%nat)))) < 2 ^ 31)%Z ->
  forall B, coeff_bound s B ->
  exists e e0, OrderElevate_rnd_s rnd s k = Ok e /\ OrderElevate s k = Ok e0 /\ wf e /\
    degrees e = upd_list (degrees s) k (S (nth k (degrees s) 0%nat)) /\ degrees e0 = degrees e /\
    (forall i, (i < n_coeffs (degrees e))%nat ->
      Rabs (nth i (control_points e) 0 - nth i (control_points e0) 0) <= 3 * gamma p 5 * B) /\
    forall xs, length xs = length (degrees s) -> in_unit_box xs ->
      Rabs (value_at e xs - value_at s xs) <= 3 * gamma p 5 * B.
Proof.
  intros p rnd s k Hp HR Hw Hk Hq Hs B HB.
  destruct (elevate_err p rnd Hp HR (V := R) (ovr := Vs rnd) (ov := VOps_scalar R (o := SOps_R)) (fun q => q) (fun _ _ => eq_refl) (fun _ _ => eq_refl) (fun _ _ => eq_refl) (fun _ _ => eq_refl) eq_refl s k B Hw Hk Hq Hs (below_coeff s B Hw HB))
    as (e & e0 & E & E0 & We & We0 & De & De0 & SV & _ & K).
  exists e, e0. do 5 (split; [assumption|]).
  assert (K' : forall i, (i < n_coeffs (degrees e))%nat ->
        Rabs (nth i (control_points e) 0 - nth i (control_points e0) 0) <= 3 * gamma p 5 * B).
  { intros i Hi. specialize (K i Hi). change (v0 (V := R)) with 0 in K. lra. }
  split; [exact K'|]. intros xs HX HU. rewrite <- (SV xs HX).
  assert (HX' : length xs = length (degrees e0)) by (rewrite De0, De, length_upd; exact HX).
  apply (close_values (ov := VOps_scalar R (o := SOps_R)) (fun q => q)); auto. rewrite De0. exact K'.
Qed.
Lemma c81_add : forall p rnd fuel d (s rhs : spline (point R d)), (0 < p)%nat -> nearest p rnd ->
  wf s -> wf rhs -> length (degrees rhs) = length (degrees s) ->
  (Z.of_nat (list_max (max_degs (degrees s) (degrees rhs))) < 2 ^ Z.of_nat p)%Z ->
  (Z.of_nat (n_coeffs (max_degs (degrees s) (degrees rhs))) < 2 ^ 31)%Z ->
  (list_max (max_degs (degrees s) (degrees rhs)) < fuel)%nat -> (2 <= fuel)%nat -> 
  exists r, spline_add_rnd rnd fuel s rhs = Ok r /\ wf r /\ degrees r = max_degs (degrees s) (degrees rhs) /\
    forall c B1 B2, (c < d)%nat -> coord_bound s c B1 -> coord_bound rhs c B2 ->
      forall xs, length xs = length (degrees s) -> in_unit_box xs ->
        Rabs (coord d (value_at r xs) c - (coord d (value_at s xs) c + coord d (value_at rhs xs) c)) <=
          sum_error p (elevations (degrees s) (degrees rhs)) (elevations (degrees rhs) (degrees s)) B1 B2.
Proof.
  intros p rnd fuel d s rhs Hp HR Hw Hwr HL Ht Hs Hf Hf2.
  destruct (add_err p rnd Hp HR (V := point R d) (ovr := Vr rnd d) (fun _ => 0) ltac:(nohom HR) ltac:(nohom HR) ltac:(nohom HR) ltac:(nohom HR) eq_refl fuel s rhs 0 0 Hw Hwr HL Ht Hs Hf Hf2 (below_0 _) (below_0 _)) as (r & E & Wr & Dr & _).
  exists r. do 3 (split; [assumption|]). intros c B1 B2 Hc HB1 HB2.
  destruct (add_err p rnd Hp HR (V := point R d) (ovr := Vr rnd d) (fun q => coord d q c) ltac:(hom) ltac:(hom) (fun a b => coord_add_rnd rnd d a b c Hc) (fun x a => coord_scale_rnd rnd d x a c Hc) eq_refl fuel s rhs B1 B2 Hw Hwr HL Ht Hs Hf Hf2 (below_coord s c B1 Hw HB1) (below_coord rhs c B2 Hwr HB2))
    as (r' & E' & _ & _ & K).
  rewrite E in E'. injection E' as <-. exact K.
Qed.
Lemma c81_add_scalar : forall p rnd fuel (s rhs : spline R), (0 < p)%nat -> nearest p rnd ->
  wf s -> wf rhs -> length (degrees rhs) = length (degrees s) ->
  (Z.of_nat (list_max (max_degs (degrees s) (degrees rhs))) < 2 ^ Z.of_nat p)%Z ->
  (Z.of_nat (n_coeffs (max_degs (degrees s) (degrees rhs))) < 2 ^ 31)%Z ->
  (list_max (max_degs (degrees s) (degrees rhs)) < fuel)%nat -> (2 <= fuel)%nat -> 
  forall B1 B2, coeff_bound s B1 -> coeff_bound rhs B2 ->
  exists r, spline_add_rnd_s rnd fuel s rhs = Ok r /\ wf r /\ degrees r = max_degs (degrees s) (degrees rhs) /\
    forall xs, length xs = length (degrees s) -> in_unit_box xs ->
      Rabs (value_at r xs - (value_at s xs + value_at rhs xs)) <=
        sum_error p (elevations (degrees s) (degrees rhs)) (elevations (degrees rhs) (degrees s)) B1 B2.
Proof.
  intros p rnd fuel s rhs Hp HR Hw Hwr HL Ht Hs Hf Hf2 B1 B2 HB1 HB2.
  destruct (add_err p rnd Hp HR (V := R) (ovr := Vs rnd) (ov := VOps_scalar R (o := SOps_R)) (fun q => q) (fun _ _ => eq_refl) (fun _ _ => eq_refl) (fun _ _ => eq_refl) (fun _ _ => eq_refl) eq_refl fuel s rhs B1 B2 Hw Hwr HL Ht Hs Hf Hf2 (below_coeff s B1 Hw HB1) (below_coeff rhs B2 Hwr HB2))
    as (r & E & Wr & Dr & K).
  exists r. do 3 (split; [assumption|]). exact K.
Qed.
Lemma c81_add_assign : forall p rnd fuel d (s rhs : spline (point R d)), (0 < p)%nat -> nearest p rnd ->
  wf s -> wf rhs -> length (degrees rhs) = length (degrees s) ->
  (Z.of_nat (list_max (max_degs (degrees s) (degrees rhs))) < 2 ^ Z.of_nat p)%Z ->
  (Z.of_nat (n_coeffs (max_degs (degrees s) (degrees rhs))) < 2 ^ 31)%Z ->
  (list_max (max_degs (degrees s) (degrees rhs)) < fuel)%nat -> 
  exists r, spline_add_assign_rnd rnd fuel s rhs = Ok r /\ wf r /\ degrees r = max_degs (degrees s) (degrees rhs) /\
    forall c B1 B2, (c < d)%nat -> coord_bound s c B1 -> coord_bound rhs c B2 ->
      forall xs, length xs = length (degrees s) -> in_unit_box xs ->
        Rabs (coord d (value_at r xs) c - (coord d (value_at s xs) c + coord d (value_at rhs xs) c)) <=
          sum_error p (elevations (degrees s) (degrees rhs)) (elevations (degrees rhs) (degrees s)) B1 B2.
Proof.
  intros p rnd fuel d s rhs Hp HR Hw Hwr HL Ht Hs Hf.
  destruct (proj1 (add_assign_err p rnd Hp HR (V := point R d) (ovr := Vr rnd d) (fun _ => 0) ltac:(nohom HR) ltac:(nohom HR) ltac:(nohom HR) ltac:(nohom HR) eq_refl ltac:(nohom HR) fuel s rhs 0 0 Hw Hwr HL Ht Hs Hf (below_0 _) (below_0 _))) as (r & E & Wr & Dr & _).
  exists r. do 3 (split; [assumption|]). intros c B1 B2 Hc HB1 HB2.
  destruct (proj1 (add_assign_err p rnd Hp HR (V := point R d) (ovr := Vr rnd d) (fun q => coord d q c) ltac:(hom) ltac:(hom) (fun a b => coord_add_rnd rnd d a b c Hc) (fun x a => coord_scale_rnd rnd d x a c Hc) eq_refl (fun a b => coord_sub_rnd rnd d a b c Hc) fuel s rhs B1 B2 Hw Hwr HL Ht Hs Hf (below_coord s c B1 Hw HB1) (below_coord rhs c B2 Hwr HB2)))
    as (r' & E' & _ & _ & K).
  rewrite E in E'. injection E' as <-. exact K.
Qed.
Lemma c81_add_assign_scalar : forall p rnd fuel (s rhs : spline R), (0 < p)%nat -> nearest p rnd ->
  wf s -> wf rhs -> length (degrees rhs) = length (degrees s) ->
  (Z.of_nat (list_max (max_degs (degrees s) (degrees rhs))) < 2 ^ Z.of_nat p)%Z ->
  (Z.of_nat (n_coeffs (max_degs (degrees s) (degrees rhs))) < 2 ^ 31)%Z ->
  (list_max (max_degs (degrees s) (degrees rhs)) < fuel)%nat -> 
  forall B1 B2, coeff_bound s B1 -> coeff_bound rhs B2 ->
  exists r, spline_add_assign_rnd_s rnd fuel s rhs = Ok r /\ wf r /\ degrees r = max_degs (degrees s) (degrees rhs) /\
    forall xs, length xs = length (degrees s) -> in_unit_box xs ->
      Rabs (value_at r xs - (value_at s xs + value_at rhs xs)) <=
        sum_error p (elevations (degrees s) (degrees rhs)) (elevations (degrees rhs) (degrees s)) B1 B2.
Proof.
  intros p rnd fuel s rhs Hp HR Hw Hwr HL Ht Hs Hf B1 B2 HB1 HB2.
  destruct (proj1 (add_assign_err p rnd Hp HR (V := R) (ovr := Vs rnd) (ov := VOps_scalar R (o := SOps_R)) (fun q => q) (fun _ _ => eq_refl) (fun _ _ => eq_refl) (fun _ _ => eq_refl) (fun _ _ => eq_refl) eq_refl (fun _ _ => eq_refl) fuel s rhs B1 B2 Hw Hwr HL Ht Hs Hf (below_coeff s B1 Hw HB1) (below_coeff rhs B2 Hwr HB2)))
    as (r & E & Wr & Dr & K).
  exists r. do 3 (split; [assumption|]). exact K.
Qed.
Lemma c81_sub_assign : forall p rnd fuel d (s rhs : spline (point R d)), (0 < p)%nat -> nearest p rnd ->
  wf s -> wf rhs -> length (degrees rhs) = length (degrees s) ->
  (Z.of_nat (list_max (max_degs (degrees s) (degrees rhs))) < 2 ^ Z.of_nat p)%Z ->
  (Z.of_nat (n_coeffs (max_degs (degrees s) (degrees rhs))) < 2 ^ 31)%Z ->
  (list_max (max_degs (degrees s) (degrees rhs)) < fuel)%nat -> 
  exists r, spline_sub_assign_rnd rnd fuel s rhs = Ok r /\ wf r /\ degrees r = max_degs (degrees s) (degrees rhs) /\
    forall c B1 B2, (c < d)%nat -> coord_bound s c B1 -> coord_bound rhs c B2 ->
      forall xs, length xs = length (degrees s) -> in_unit_box xs ->
        Rabs (coord d (value_at r xs) c - (coord d (value_at s xs) c - coord d (value_at rhs xs) c)) <=
          sum_error p (elevations (degrees s) (degrees rhs)) (elevations (degrees rhs) (degrees s)) B1 B2.
Proof.
  intros p rnd fuel d s rhs Hp HR Hw Hwr HL Ht Hs Hf.
  destruct (proj2 (add_assign_err p rnd Hp HR (V := point R d) (ovr := Vr rnd d) (fun _ => 0) ltac:(nohom HR) ltac:(nohom HR) ltac:(nohom HR) ltac:(nohom HR) eq_refl ltac:(nohom HR) fuel s rhs 0 0 Hw Hwr HL Ht Hs Hf (below_0 _) (below_0 _))) as (r & E & Wr & Dr & _).
  exists r. do 3 (split; [assumption|]). intros c B1 B2 Hc HB1 HB2.
  destruct (proj2 (add_assign_err p rnd Hp HR (V := point R d) (ovr := Vr rnd d) (fun q => coord d q c) ltac:(hom) ltac:(hom) (fun a b => coord_add_rnd rnd d a b c Hc) (fun x a => coord_scale_rnd rnd d x a c Hc) eq_refl (fun a b => coord_sub_rnd rnd d a b c Hc) fuel s rhs B1 B2 Hw Hwr HL Ht Hs Hf (below_coord s c B1 Hw HB1) (below_coord rhs c B2 Hwr HB2)))
    as (r' & E' & _ & _ & K).
  rewrite E in E'. injection E' as <-. exact K.
Qed.
Lemma c81_sub_assign_scalar : forall p rnd fuel (s rhs : spline R), (0 < p)%nat -> nearest p rnd ->
  wf s -> wf rhs -> length (degrees rhs) = length (degrees s) ->
  (Z.of_nat (list_max (max_degs (degrees s) (degrees rhs))) < 2 ^ Z.of_nat p)%Z ->
  (Z.of_nat (n_coeffs (max_degs (degrees s) (degrees rhs))) < 2 ^ 31)%Z ->
  (list_max (max_degs (degrees s) (degrees rhs)) < fuel)%nat -> 
  forall B1 B2, coeff_bound s B1 -> coeff_bound rhs B2 ->
  exists r, spline_sub_assign_rnd_s rnd fuel s rhs = Ok r /\ wf r /\ degrees r = max_degs (degrees s) (degrees rhs) /\
    forall xs, length xs = length (degrees s) -> in_unit_box xs ->
      Rabs (value_at r xs - (value_at s xs - value_at rhs xs)) <=
        sum_error p (elevations (degrees s) (degrees rhs)) (elevations (degrees rhs) (degrees s)) B1 B2.
Proof.
  intros p rnd fuel s rhs Hp HR Hw Hwr HL Ht Hs Hf B1 B2 HB1 HB2.
  destruct (proj2 (add_assign_err p rnd Hp HR (V := R) (ovr := Vs rnd) (ov := VOps_scalar R (o := SOps_R)) (fun q => q) (fun _ _ => eq_refl) (fun _ _ => eq_refl) (fun _ _ => eq_refl) (fun _ _ => eq_refl) eq_refl (fun _ _ => eq_refl) fuel s rhs B1 B2 Hw Hwr HL Ht Hs Hf (below_coeff s B1 Hw HB1) (below_coeff rhs B2 Hwr HB2)))
    as (r & E & Wr & Dr & K).
  exists r. do 3 (split; [assumption|]). exact K.
Qed.

(** ** C82 *)
Lemma c82_split : forall p rnd d (s : spline (point R d)) x k, (0 < p)%nat -> nearest p rnd ->
  wf s -> (k < length (degrees s))%nat -> 0 < x < 1 ->
  exists l r l0 r0, SplitAtPosition_rnd rnd s x k = Ok [l; r] /\ SplitAtPosition s x k = Ok [l0; r0] /\
    wf l /\ wf r /\ degrees l = degrees s /\ degrees r = degrees s /\
    forall c B, (c < d)%nat -> coord_bound s c B ->
      (forall i, (i < n_coeffs (degrees s))%nat ->
        Rabs (coord d (nth i (control_points l) v0) c - coord d (nth i (control_points l0) v0) c) <= gamma p (3 * nth k (degrees s) 0%nat) * B /\
        Rabs (coord d (nth i (control_points r) v0) c - coord d (nth i (control_points r0) v0) c) <= gamma p (3 * nth k (degrees s) 0%nat) * B) /\
      forall xs, length xs = length (degrees s) -> in_unit_box xs ->
        Rabs (coord d (value_at l xs) c - coord d (value_at s (upd_list xs k (x * nth k xs 0))) c) <=
          gamma p (3 * nth k (degrees s) 0%nat) * B /\
        Rabs (coord d (value_at r xs) c - coord d (value_at s (upd_list xs k (x + (1 - x) * nth k xs 0))) c) <=
          gamma p (3 * nth k (degrees s) 0%nat) * B.
Proof.
  intros p rnd d s x k Hp HR Hw Hk Hx.
  destruct (split_err p rnd Hp HR (V := point R d) (ovr := Vr rnd d) (fun _ => 0) ltac:(nohom HR) ltac:(nohom HR) ltac:(nohom HR) ltac:(nohom HR) eq_refl s x k 0 Hw Hk Hx (below_0 _))
    as (l & r & l0 & r0 & E & E0 & (W1 & W2 & _ & _) & (D1 & D2 & _ & _) & _).
  exists l, r, l0, r0. do 6 (split; [assumption|]). intros c B Hc HB.
  destruct (split_err p rnd Hp HR (V := point R d) (ovr := Vr rnd d) (fun q => coord d q c) ltac:(hom) ltac:(hom) (fun a b => coord_add_rnd rnd d a b c Hc) (fun x a => coord_scale_rnd rnd d x a c Hc) eq_refl s x k B Hw Hk Hx (below_coord s c B Hw HB))
    as (l' & r' & l0' & r0' & E' & E0' & _ & _ & K).
  rewrite E in E'. injection E' as <- <-. rewrite E0 in E0'. injection E0' as <- <-. exact K.
Qed.
Lemma c82_split_scalar : forall p rnd (s : spline R) x k, (0 < p)%nat -> nearest p rnd ->
  wf s -> (k < length (degrees s))%nat -> 0 < x < 1 -> forall B, coeff_bound s B ->
  exists l r l0 r0, SplitAtPosition_rnd_s rnd s x k = Ok [l; r] /\ SplitAtPosition s x k = Ok [l0; r0] /\
    wf l /\ wf r /\ degrees l = degrees s /\ degrees r = degrees s /\
    (forall i, (i < n_coeffs (degrees s))%nat ->
      Rabs (nth i (control_points l) 0 - nth i (control_points l0) 0) <= gamma p (3 * nth k (degrees s) 0%nat) * B /\
      Rabs (nth i (control_points r) 0 - nth i (control_points r0) 0) <= gamma p (3 * nth k (degrees s) 0%nat) * B) /\
    forall xs, length xs = length (degrees s) -> in_unit_box xs ->
      Rabs (value_at l xs - value_at s (upd_list xs k (x * nth k xs 0))) <= gamma p (3 * nth k (degrees s) 0%nat) * B /\
      Rabs (value_at r xs - value_at s (upd_list xs k (x + (1 - x) * nth k xs 0))) <= gamma p (3 * nth k (degrees s) 0%nat) * B.
Proof.
  intros p rnd s x k Hp HR Hw Hk Hx B HB.
  destruct (split_err p rnd Hp HR (V := R) (ovr := Vs rnd) (ov := VOps_scalar R (o := SOps_R)) (fun q => q) (fun _ _ => eq_refl) (fun _ _ => eq_refl) (fun _ _ => eq_refl) (fun _ _ => eq_refl) eq_refl s x k B Hw Hk Hx (below_coeff s B Hw HB))
    as (l & r & l0 & r0 & E & E0 & (W1 & W2 & _ & _) & (D1 & D2 & _ & _) & K).
  exists l, r, l0, r0. do 6 (split; [assumption|]). exact K.
Qed.

(** ** C83 *)
Lemma c83_derivative : forall p rnd MAXB d (s : spline (point R d)) orders, (0 < p)%nat -> nearest p rnd -> (MAXB <= 68)%nat ->
  wf s -> length orders = length (degrees s) -> Forall2 le orders (degrees s) -> Forall (fun k => (k < MAXB)%nat) orders ->
  exists r r0, DerivativeWRT_rnd rnd MAXB s orders = Ok r /\ DerivativeWRT MAXB s orders = Ok r0 /\
    wf r /\ wf r0 /\ degrees r = map2 Nat.sub (degrees s) orders /\ degrees r0 = degrees r /\
    forall c B, (c < d)%nat -> coord_bound s c B ->
      (forall i, (i < n_coeffs (degrees r))%nat ->
        Rabs (coord d (nth i (control_points r) v0) c - coord d (nth i (control_points r0) v0) c) <=
          gamma p (derivative_roundings orders) * (derivative_scale (degrees s) orders * B)) /\
      forall xs, length xs = length (degrees s) -> in_unit_box xs ->
        Rabs (coord d (value_at r xs) c - coord d (value_at r0 xs) c) <=
          gamma p (derivative_roundings orders) * (derivative_scale (degrees s) orders * B).
Proof.
  intros p rnd MAXB d s orders Hp HR HMB Hw HL Hle HM.
  destruct (derivative_err p rnd Hp HR (V := point R d) (ovr := Vr rnd d) (fun _ => 0) ltac:(nohom HR) ltac:(nohom HR) ltac:(nohom HR) ltac:(nohom HR) eq_refl MAXB s orders 0 HMB Hw HL Hle HM (below_0 _))
    as (r & r0 & E & E0 & W1 & W2 & D1 & D2 & _).
  exists r, r0. do 5 (split; [assumption|]). split; [congruence|]. intros c B Hc HB.
  destruct (derivative_err p rnd Hp HR (V := point R d) (ovr := Vr rnd d) (fun q => coord d q c) ltac:(hom) ltac:(hom) (fun a b => coord_add_rnd rnd d a b c Hc) (fun x a => coord_scale_rnd rnd d x a c Hc) eq_refl MAXB s orders B HMB Hw HL Hle HM (below_coord s c B Hw HB))
    as (r' & r0' & E' & E0' & _ & _ & _ & _ & K).
  rewrite E in E'. injection E' as <-. rewrite E0 in E0'. injection E0' as <-.
  rewrite D2, <- D1 in K. exact K.
Qed.
Lemma c83_derivative_scalar : forall p rnd MAXB (s : spline R) orders, (0 < p)%nat -> nearest p rnd -> (MAXB <= 68)%nat ->
  wf s -> length orders = length (degrees s) -> Forall2 le orders (degrees s) -> Forall (fun k => (k < MAXB)%nat) orders ->
  forall B, coeff_bound s B ->
  exists r r0, DerivativeWRT_rnd_s rnd MAXB s orders = Ok r /\ DerivativeWRT MAXB s orders = Ok r0 /\
    wf r /\ wf r0 /\ degrees r = map2 Nat.sub (degrees s) orders /\ degrees r0 = degrees r /\
    (forall i, (i < n_coeffs (degrees r))%nat ->
      Rabs (nth i (control_points r) 0 - nth i (control_points r0) 0) <=
        gamma p (derivative_roundings orders) * (derivative_scale (degrees s) orders * B)) /\
    forall xs, length xs = length (degrees s) -> in_unit_box xs ->
      Rabs (value_at r xs - value_at r0 xs) <=
        gamma p (derivative_roundings orders) * (derivative_scale (degrees s) orders * B).
Proof.
  intros p rnd MAXB s orders Hp HR HMB Hw HL Hle HM B HB.
  destruct (derivative_err p rnd Hp HR (V := R) (ovr := Vs rnd) (ov := VOps_scalar R (o := SOps_R)) (fun q => q) (fun _ _ => eq_refl) (fun _ _ => eq_refl) (fun _ _ => eq_refl) (fun _ _ => eq_refl) eq_refl MAXB s orders B HMB Hw HL Hle HM (below_coeff s B Hw HB))
    as (r & r0 & E & E0 & W1 & W2 & D1 & D2 & K).
  exists r, r0. do 5 (split; [assumption|]). split; [congruence|]. rewrite D2, <- D1 in K. exact K.
Qed.

(** ** C84 *)
Lemma c84_split : forall (T V : Type) (o : SOps T) (ov : VOps T V) (s : spline V) x k parts,
  wf s -> (k < length (degrees s))%nat -> SplitAtPosition s x k = Ok parts ->
  exists l r, parts = [l; r] /\ wf l /\ wf r /\ degrees l = degrees s /\ degrees r = degrees s /\
    same_near_face k l s /\ joined k l r /\ same_far_face k r s.
Proof. intros. apply (split_faces s x); auto. Qed.
Lemma c84_splits : forall (T V : Type) (o : SOps T) (ov : VOps T V) (s : spline V) planes k parts,
  wf s -> (k < length (degrees s))%nat -> SplitAtPositions s planes k = Ok parts ->
  length parts = S (length planes) /\ Forall (fun q => wf q /\ degrees q = degrees s) parts /\
  same_near_face k (nth 0 parts s) s /\ same_far_face k (nth (length planes) parts s) s /\
  forall i, (i < length planes)%nat -> joined k (nth i parts s) (nth (S i) parts s).
Proof. intros. apply splits_faces; auto. Qed.

(** Evaluation on a common face. *)
Lemma dc_repr p rnd x f r j : nearest p rnd -> (forall i, representable p (f i)) ->
  representable p (dc (o := SOps_rnd rnd) (ov := Vs rnd) x f r j).
Proof. intros HR HF. destruct r; cbn [dc]; [apply HF|]. cbn [vadd VOps_scalar sadd SOps_rnd]. apply HR. Qed.
Lemma dct_joined p rnd degs k : forall xs f h, (0 < p)%nat -> nearest p rnd -> length xs = length degs -> (k < length degs)%nat ->
  (forall i, representable p (f i)) -> (forall i, representable p (h i)) ->
  (forall mi, valid_index degs mi -> f (position degs (upd_list mi k (nth k degs 0%nat))) = h (position degs (upd_list mi k 0%nat))) ->
  dct (o := SOps_rnd rnd) (ov := Vs rnd) degs (upd_list xs k 1) f = dct (o := SOps_rnd rnd) (ov := Vs rnd) degs (upd_list xs k 0) h.
Proof.
  revert k. induction degs as [|q degs IH]; intros k xs f h Hp HR HL Hk HF HH HJ; [simpl in Hk; lia|].
  destruct xs as [|x xs]; [discriminate|]. destruct k as [|k]; cbn [upd_list dct].
  - apply dct_ext. intros m Hm. rewrite !(dc_corner p) by auto.
    destruct (Req_EM_T 1 0) as [|_]; [lra|]. destruct (Req_EM_T 0 0) as [_|]; [|lra].
    specialize (HJ (0%nat :: index_of degs m)). cbn [upd_list position nth] in HJ. rewrite position_index_of in HJ by auto.
    rewrite Nat.add_0_l. apply HJ. constructor; [lia|apply index_of_valid].
  - apply IH; auto; try (simpl in *; lia); try (intros; apply dc_repr; auto).
    intros mi HV. apply dc_ext. intros j Hj.
    specialize (HJ (j :: mi)). cbn [upd_list position nth] in HJ. apply HJ. constructor; [lia|exact HV].
Qed.
Lemma c84_watertight : forall p rnd d (a b : spline (point R d)) k xs, (0 < p)%nat -> nearest p rnd ->
  wf a -> wf b -> degrees b = degrees a -> (k < length (degrees a))%nat -> length xs = length (degrees a) -> joined k a b ->
  (forall q c, In q (control_points a ++ control_points b) -> (c < d)%nat -> representable p (coord d q c)) ->
  Evaluate_rnd rnd a (upd_list xs k 1) = Evaluate_rnd rnd b (upd_list xs k 0).
Proof.
  intros p rnd d a b k xs Hp HR Ha Hb D Hk HL HJ HC. unfold Evaluate_rnd.
  rewrite !Evaluate_dct by (auto; rewrite length_upd; congruence). rewrite D. f_equal.
  apply (point_ext (o := SOps_R)). intros c Hc. rewrite !coord_dct_rnd by auto.
  assert (HP : forall s i, (forall q, In q (control_points s) -> In q (control_points a ++ control_points b)) ->
    representable p (coord d (nth i (control_points s) (v0 (VOps := Vr rnd d))) c)).
  { intros s i Hs. destruct (lt_dec i (length (control_points s))) as [Hi|Hi].
    - apply HC; auto. apply Hs, nth_In, Hi.
    - rewrite nth_overflow by lia. change (v0 (V := point R d)) with (pconst d 0). rewrite (coord_const (o := SOps_R)) by auto. apply repr_0. }
  apply (dct_joined p); auto.
  - intros i. apply HP. intros. apply in_or_app. auto.
  - intros i. apply HP. intros. apply in_or_app. auto.
  - intros mi HV. specialize (HJ mi HV). unfold face_coefficient in HJ. rewrite D in HJ. f_equal. exact HJ.
Qed.

(** Every coefficient of a piece is a coefficient of the spline or a rounded number. *)
Definition repr_points (p d : nat) (s : spline (point R d)) : Prop :=
  forall q c, In q (control_points s) -> (c < d)%nat -> representable p (coord d q c).
Lemma dc_coord_rnd rnd d x f r j k : (k < d)%nat ->
  coord d (dc (o := SOps_rnd rnd) (ov := Vr rnd d) x f r j) k = dc (o := SOps_rnd rnd) (ov := Vs rnd) x (fun i => coord d (f i) k) r j.
Proof.
  intros Hk. revert j; induction r; intros j; cbn [dc]; [reflexivity|].
  rewrite coord_add_rnd, !coord_scale_rnd, !IHr by auto. reflexivity.
Qed.
Lemma split_repr p rnd d (s : spline (point R d)) x k l r : nearest p rnd -> wf s -> (k < length (degrees s))%nat ->
  SplitAtPosition_rnd rnd s x k = Ok [l; r] -> repr_points p d s -> repr_points p d l /\ repr_points p d r.
Proof.
  intros HR Hw Hk E HC. unfold SplitAtPosition_rnd in E.
  assert (HX : slt (H := SOps_rnd rnd) (s0 (SOps := SOps_rnd rnd)) x /\ slt (H := SOps_rnd rnd) x (s1 (SOps := SOps_rnd rnd))).
  { unfold SplitAtPosition in E. unfold slt. destruct (sltb (SOps := SOps_rnd rnd) s0 x); [|discriminate].
    destruct (sltb (SOps := SOps_rnd rnd) x s1); [auto|discriminate]. }
  destruct (SplitAtPosition_raw (o := SOps_rnd rnd) (ov := Vr rnd d) s x k Hw Hk (proj1 HX) (proj2 HX)) as (c1 & c2 & E' & L1 & L2 & HN).
  rewrite E' in E. injection E as <- <-.
  set (q := nth k (degrees s) 0%nat) in *. set (off := n_coeffs (firstn k (degrees s))) in *.
  set (cnt := n_coeffs (skipn (S k) (degrees s))) in *.
  assert (Hoff : (0 < off)%nat) by apply n_coeffs_pos.
  assert (Lc : length (control_points s) = n_coeffs (degrees s)) by apply Hw.
  assert (Etot : n_coeffs (degrees s) = (off * (q + 1) * cnt)%nat).
  { rewrite (n_coeffs_split (degrees s) k), (skipn_cons_nth 0%nat (degrees s) k) by auto.
    rewrite n_coeffs_cons. fold q off cnt. lia. }
  assert (HF : forall i c, (c < d)%nat -> representable p (coord d (nth i (control_points s) (v0 (VOps := Vr rnd d))) c)).
  { intros i c Hc. destruct (lt_dec i (length (control_points s))) as [Hi|Hi].
    - apply HC; auto. apply nth_In, Hi.
    - rewrite nth_overflow by lia. change (v0 (V := point R d)) with (pconst d 0). rewrite (coord_const (o := SOps_R)) by auto. apply repr_0. }
  assert (Key : forall i c, (i < n_coeffs (degrees s))%nat -> (c < d)%nat ->
    representable p (coord d (nth i c1 (v0 (VOps := Vr rnd d))) c) /\ representable p (coord d (nth i c2 (v0 (VOps := Vr rnd d))) c)).
  { intros i c Hi Hc.
    assert (HI : exists a j m, (a < off)%nat /\ (j <= q)%nat /\ (m < cnt)%nat /\ i = (a + off * (j + (q + 1) * m))%nat).
    { exists (i mod off)%nat, (i / off mod (q + 1))%nat, (i / off / (q + 1))%nat.
      split; [apply Nat.mod_upper_bound; lia|]. split; [pose proof (Nat.mod_upper_bound (i / off) (q + 1)); lia|]. split.
      - apply Nat.div_lt_upper_bound; [lia|]. apply Nat.div_lt_upper_bound; [lia|]. rewrite Etot in Hi. nia.
      - rewrite (Nat.div_mod i off) at 1 by lia. rewrite (Nat.div_mod (i / off) (q + 1)) at 1 by lia. lia. }
    destruct HI as (a & j & m & Ha & Hj & Hm & ->). destruct (HN a j m Ha Hj Hm) as (A1 & A2).
    rewrite A1, A2, !dc_coord_rnd by auto. split; apply dc_repr; auto. }
  split; intros z c Hz Hc; cbn [control_points with_cps] in Hz; destruct (In_nth _ _ (v0 (VOps := Vr rnd d)) Hz) as (i & Hi & <-); apply Key; auto; lia.
Qed.
Lemma splits_repr p rnd d (s : spline (point R d)) planes k parts : nearest p rnd -> wf s -> (k < length (degrees s))%nat ->
  SplitAtPositions_rnd rnd s planes k = Ok parts -> repr_points p d s -> forall q, In q parts -> repr_points p d q.
Proof.
  intros HR Hw Hk E HC. unfold SplitAtPositions_rnd, SplitAtPositions in E. destruct (is_sorted planes); [|discriminate]. cbn [negb] in E.
  destruct (Nat.eqb_spec (length planes) 0) as [E0|E0].
  { injection E as <-. intros q [<-|[]]. exact HC. }
  rewrite (get_ok (s0 (SOps := SOps_rnd rnd))) in E by lia. cbn [bind] in E. apply bind_ok in E. destruct E as (sp & E1 & E).
  destruct (split_faces (o := SOps_rnd rnd) (ov := Vr rnd d) s _ k sp Hw Hk E1) as (l & r & -> & Wl & Wr & Dl & Dr & _).
  destruct (split_repr p rnd d s _ k l r HR Hw Hk E1 HC) as (Rl & Rr).
  cbn [get nth_error bind] in E. apply bind_ok in E. destruct E as ([out sp] & E2 & E).
  eapply (for_up_pci (fun i (st : list (spline (point R d)) * list (spline (point R d))) => let '(out, sp) := st in
    exists l r, sp = [l; r] /\ (forall q, In q out -> repr_points p d q) /\ wf r /\ degrees r = degrees s /\ repr_points p d r)) in E2.
  - destruct E2 as (l' & r' & -> & HW & Wr' & Dr' & Rr'). cbn [get nth_error bind] in E. injection E as <-.
    intros q Hq. apply in_app_or in Hq. destruct Hq as [Hq|[<-|[]]]; auto.
  - intros i [ou sp'] y Hi HI HB. destruct HI as (l' & r' & -> & HW & Wr' & Dr' & Rr').
    apply bind_ok in HB. destruct HB as (pi & _ & HB). apply bind_ok in HB. destruct HB as (pm & _ & HB).
    apply bind_ok in HB. destruct HB as (rel & _ & HB). cbn [get nth_error bind] in HB.
    apply bind_ok in HB. destruct HB as (sp2 & E3 & HB).
    assert (Hk' : (k < length (degrees r'))%nat) by congruence.
    destruct (split_faces (o := SOps_rnd rnd) (ov := Vr rnd d) r' _ k sp2 Wr' Hk' E3) as (l2 & r2 & -> & Wl2 & Wr2 & Dl2 & Dr2 & _).
    destruct (split_repr p rnd d r' _ k l2 r2 HR Wr' Hk' E3 Rr') as (Rl2 & Rr2).
    cbn [get nth_error bind] in HB. injection HB as <-. exists l2, r2.
    split; [reflexivity|]. split.
    { intros q Hq. apply in_app_or in Hq. destruct Hq as [Hq|[<-|[]]]; auto. }
    split; [auto|]. split; [congruence|auto].
  - exists l, r. split; [reflexivity|]. split; [intros q [<-|[]]; auto|]. auto.
Qed.
Lemma c84_pieces : forall p rnd d (s : spline (point R d)) planes k parts, (0 < p)%nat -> nearest p rnd ->
  wf s -> (k < length (degrees s))%nat -> SplitAtPositions_rnd rnd s planes k = Ok parts ->
  (forall q c, In q (control_points s) -> (c < d)%nat -> representable p (coord d q c)) ->
  length parts = S (length planes) /\
  forall i xs, (i < length planes)%nat -> length xs = length (degrees s) ->
    Evaluate_rnd rnd (nth i parts s) (upd_list xs k 1) = Evaluate_rnd rnd (nth (S i) parts s) (upd_list xs k 0).
Proof.
  intros p rnd d s planes k parts Hp HR Hw Hk E HC.
  destruct (splits_faces (o := SOps_rnd rnd) (ov := Vr rnd d) s planes k parts Hw Hk E) as (HL & HW & _ & _ & HJ).
  split; [exact HL|]. intros i xs Hi HX.
  assert (HI : forall j, (j <= length planes)%nat -> In (nth j parts s) parts) by (intros; apply nth_In; lia).
  rewrite Forall_forall in HW. destruct (HW _ (HI i ltac:(lia))) as (Wa & Da). destruct (HW _ (HI (S i) ltac:(lia))) as (Wb & Db).
  apply (c84_watertight p); auto; try congruence.
  - exact (HJ i Hi).
  - intros q c Hq Hc. apply in_app_or in Hq. destruct Hq as [Hq|Hq].
    + exact (splits_repr p rnd d s planes k parts HR Hw Hk E HC _ (HI i ltac:(lia)) q c Hq Hc).
    + exact (splits_repr p rnd d s planes k parts HR Hw Hk E HC _ (HI (S i) ltac:(lia)) q c Hq Hc).
Qed.
