(** C71-C73: rounding errors of the evaluation functions. *)
From Coq Require Import Arith Lia List ZArith NArith Bool Reals Lra Psatz.
From Verif Require Import Prelude Scalar Spec SpecSpline Sums Coord ModelBasis ModelSpline ModelRational SpecRational
  ModelRound SpecRound ProofIndex ProofBasis ProofEval ProofArith ProofRational ProofParam ProofCasteljau ProofRound ProofRoundEval.
Import ListNotations.
Local Open Scope R_scope.

Lemma unit_pos p : 0 <= / 2 ^ p.
Proof. left. apply Rinv_0_lt_compat, pow_lt. lra. Qed.
Lemma unit_lt_1 p : (0 < p)%nat -> / 2 ^ p < 1.
Proof.
  intros H. rewrite <- Rinv_1. apply Rinv_lt_contravar; [rewrite Rmult_1_l; apply pow_lt; lra|].
  apply Rlt_pow_R1; [lra|auto].
Qed.
Notation Vr rnd d := (VOps_point R d (o := SOps_rnd rnd)).
Notation Vs rnd := (VOps_scalar R (o := SOps_rnd rnd)).

Lemma coord_scale_rnd rnd d c (a : point R d) k : (k < d)%nat ->
  coord d (vscale (VOps := Vr rnd d) c a) k = rnd (c * coord d a k).
Proof. intros Hk. rewrite Rmult_comm. apply (coord_pmap (o := SOps_R) d (fun x => rnd (x * c)) a k Hk). Qed.
Lemma coord_dct_rnd rnd d degs xs f k : (k < d)%nat ->
  coord d (dct (o := SOps_rnd rnd) (ov := Vr rnd d) degs xs f) k =
  dct (o := SOps_rnd rnd) (ov := Vs rnd) degs xs (fun i => coord d (f i) k).
Proof.
  intros Hk. apply (dct_hom (o := SOps_rnd rnd) (ov := Vr rnd d) (ow := Vs rnd) (fun p : point R d => coord d p k)).
  - intros a b. apply (coord_pmap2 (o := SOps_R) d (fun x y => rnd (x + y)) a b k Hk).
  - intros c a. apply (coord_scale_rnd rnd d c a k Hk).
Qed.

Lemma coord_value d (s : spline (point R d)) xs k :
  coord d (value_at s xs) k = bezier (degrees s) xs (fun i => coord d (nth i (control_points s) v0) k).
Proof. apply coord_bezier. Qed.

Section WithRnd.
Context (p : nat) (rnd : R -> R) (Hp : (0 < p)%nat) (HR : nearest p rnd).
Let u := / 2 ^ p.
Let Hu := unit_pos p.
Let Hu1 := unit_lt_1 p Hp.
Let Hr := nearest_error p rnd Hp HR.

Lemma eval_rnd d (s : spline (point R d)) xs : wf s -> length xs = length (degrees s) -> in_unit_box xs ->
  exists e, Evaluate_rnd rnd s xs = Ok e /\ forall k, (k < d)%nat ->
    Er ((1 + u) ^ casteljau_roundings (degrees s)) (coord d e k) (coord d (value_at s xs) k) (magnitude s xs k).
Proof using Hp HR.
  intros Hw HL HX. unfold Evaluate_rnd. rewrite Evaluate_dct by auto. eexists; split; [reflexivity|].
  intros k Hk. rewrite coord_dct_rnd by auto. rewrite coord_value. unfold magnitude.
  rewrite <- !dct_bezier by auto. apply (dct_err rnd u Hu Hr) with (k := 0%nat); auto.
  intros i Hi. apply Er_exact.
Qed.
Lemma eval_rnd_s (s : spline R) xs : wf s -> length xs = length (degrees s) -> in_unit_box xs ->
  exists e, Evaluate_rnd_s rnd s xs = Ok e /\
    Er ((1 + u) ^ casteljau_roundings (degrees s)) e (value_at s xs) (magnitude_s s xs).
Proof using Hp HR.
  intros Hw HL HX. unfold Evaluate_rnd_s. rewrite Evaluate_dct by auto. eexists; split; [reflexivity|].
  unfold magnitude_s, value_at. rewrite <- !dct_bezier by auto. apply (dct_err rnd u Hu Hr) with (k := 0%nat); auto.
  intros i Hi. apply Er_exact.
Qed.
(** Positive coefficients: two-sided relative error. *)
Lemma eval_rnd_pos (s : spline R) xs : wf s -> length xs = length (degrees s) -> in_unit_box xs ->
  Forall (fun c => 0 < c) (control_points s) ->
  exists e, Evaluate_rnd_s rnd s xs = Ok e /\ Sr u (casteljau_roundings (degrees s)) e (value_at s xs).
Proof using Hp HR.
  intros Hw HL HX HC. unfold Evaluate_rnd_s. rewrite Evaluate_dct by auto. eexists; split; [reflexivity|].
  unfold value_at. rewrite <- !dct_bezier by auto.
  apply (dct_sr rnd u Hu Hr Hu1) with (k := 0%nat); auto. intros i Hi. split; [|apply Sr_exact].
  destruct Hw as (_ & _ & _ & Lc). left. eapply Forall_forall in HC; eauto. apply nth_In. lia.
Qed.
End WithRnd.

Lemma sum_pos (f : nat -> R) n : (forall i, (i < n)%nat -> 0 <= f i) -> 0 <= vsum n f.
Proof.
  induction n; intros H; cbn [vsum]; [cbn; lra|]. cbn [vadd VOps_scalar sadd SOps_R]. apply Rplus_le_le_0_compat; [apply IHn|]; auto.
Qed.
Lemma magnitude_bound degs xs f M : length xs = length degs -> in_unit_box xs ->
  (forall i, (i < n_coeffs degs)%nat -> f i <= M) -> bezier degs xs f <= M.
Proof.
  intros HL HX H. rewrite <- (bezier_const (V := R) degs xs M HL). rewrite <- !dct_bezier by auto.
  assert (D : 0 <= dct degs xs (fun i => M - f i)).
  { apply dct_nonneg; auto. intros i Hi. specialize (H i Hi). lra. }
  rewrite !dct_bezier in * by auto.
  change (fun i => M - f i) with (fun i => vsub (V := R) ((fun _ => M) i) (f i)) in D. rewrite bezier_sub in D. cbn in D. lra.
Qed.

(** ** C71 *)
Lemma c71_evaluate : forall p rnd d (s : spline (point R d)) xs, (0 < p)%nat -> nearest p rnd ->
  wf s -> length xs = length (degrees s) -> in_unit_box xs ->
  exists e, Evaluate_rnd rnd s xs = Ok e /\ forall k, (k < d)%nat ->
    Rabs (coord d e k - coord d (value_at s xs) k) <= gamma p (casteljau_roundings (degrees s)) * magnitude s xs k.
Proof.
  intros p rnd d s xs Hp HR Hw HL HX. destruct (eval_rnd p rnd Hp HR d s xs Hw HL HX) as (e & E & H).
  exists e. split; auto. intros k Hk. apply (H k Hk).
Qed.
Lemma c71_evaluate_scalar : forall p rnd (s : spline R) xs, (0 < p)%nat -> nearest p rnd ->
  wf s -> length xs = length (degrees s) -> in_unit_box xs ->
  exists e, Evaluate_rnd_s rnd s xs = Ok e /\
    Rabs (e - value_at s xs) <= gamma p (casteljau_roundings (degrees s)) * magnitude_s s xs.
Proof.
  intros p rnd s xs Hp HR Hw HL HX. destruct (eval_rnd_s p rnd Hp HR s xs Hw HL HX) as (e & E & H).
  exists e. split; auto. apply H.
Qed.
Lemma c71_magnitude : forall d (s : spline (point R d)) xs k M, wf s -> length xs = length (degrees s) -> in_unit_box xs ->
  (forall i, (i < n_coeffs (degrees s))%nat -> Rabs (coord d (nth i (control_points s) v0) k) <= M) -> magnitude s xs k <= M.
Proof. intros. apply magnitude_bound; auto. Qed.
Lemma c71_gamma : forall p k, INR k * / 2 ^ p <= 1 / 2 -> 0 <= gamma p k <= 2 * INR k * / 2 ^ p.
Proof.
  intros p k H. unfold gamma. set (u := / 2 ^ p) in *. assert (Hu : 0 <= u) by apply unit_pos.
  assert (A : forall n, (1 + u) ^ n * (1 - INR n * u) <= 1 /\ 1 <= (1 + u) ^ n).
  { induction n as [|n (I1 & I2)]; [simpl; lra|]. rewrite S_INR. cbn [pow]. pose proof (pos_INR n). split; [|nra].
    assert (E : (1 + u) * (1 - (INR n + 1) * u) <= 1 - INR n * u) by nra.
    apply (Rmult_le_compat_l ((1 + u) ^ n)) in E; [lra|lra]. }
  destruct (A k) as (A1 & A2). split; [lra|]. pose proof (pos_INR k). set (y := INR k * u) in *.
  assert (0 <= y) by (apply Rmult_le_pos; auto). replace (2 * INR k * u) with (2 * y) by (unfold y; ring).
  set (g := (1 + u) ^ k) in *. nra.
Qed.
(** Parameters 0 and 1 return control points exactly. *)
Lemma repr_0 p : representable p 0.
Proof. exists 0%Z, 0%Z. split; [apply Z.pow_pos_nonneg; lia|simpl; ring]. Qed.
Lemma repr_1 p : (0 < p)%nat -> representable p 1.
Proof. intros. exists 1%Z, 0%Z. split; [|simpl; ring]. simpl. apply (Z.pow_gt_1 2 (Z.of_nat p)); lia. Qed.
Lemma dc_corner p rnd x f r j : (0 < p)%nat -> nearest p rnd -> x = 0 \/ x = 1 -> (forall i, representable p (f i)) ->
  dc (o := SOps_rnd rnd) (ov := Vs rnd) x f r j = (if Req_EM_T x 0 then f j else f (j + r)%nat).
Proof.
  intros Hp HR Hx HF. revert j; induction r; intros j.
  - cbn [dc]. rewrite Nat.add_0_r. destruct (Req_EM_T x 0); auto.
  - cbn [dc vadd vscale VOps_scalar sadd smul ssub s1 SOps_rnd]. rewrite !IHr.
    destruct (Req_EM_T x 0) as [->|N].
    + rewrite Rminus_0_r, (nearest_exact p rnd 1), Rmult_1_l, Rmult_0_l by (auto using repr_1).
      rewrite (nearest_exact p rnd (f j)), (nearest_exact p rnd 0) by (auto using repr_0). rewrite Rplus_0_r. apply (nearest_exact p); auto.
    + destruct Hx as [->| ->]; [lra|]. replace (1 - 1) with 0 by ring.
      rewrite (nearest_exact p rnd 0), Rmult_1_l, Rmult_0_l by (auto using repr_0).
      rewrite (nearest_exact p rnd (f (S j + r)%nat)), (nearest_exact p rnd 0) by (auto using repr_0). rewrite Rplus_0_l.
      replace (j + S r)%nat with (S j + r)%nat by lia. apply (nearest_exact p); auto.
Qed.
Lemma dc_corner_exact x f r j : x = 0 \/ x = 1 -> dc (V := R) x f r j = (if Req_EM_T x 0 then f j else f (j + r)%nat).
Proof.
  intros Hx. revert j; induction r; intros j.
  - cbn [dc]. rewrite Nat.add_0_r. destruct (Req_EM_T x 0); auto.
  - cbn [dc vadd vscale VOps_scalar sadd smul ssub s1 SOps_R]. rewrite !IHr. destruct (Req_EM_T x 0) as [->|N]; [ring|].
    destruct Hx as [->| ->]; [lra|]. replace (j + S r)%nat with (S j + r)%nat by lia. ring.
Qed.
Lemma dct_corner p rnd degs xs f : (0 < p)%nat -> nearest p rnd -> Forall (fun x => x = 0 \/ x = 1) xs ->
  (forall i, representable p (f i)) ->
  dct (o := SOps_rnd rnd) (ov := Vs rnd) degs xs f = dct (V := R) degs xs f.
Proof.
  intros Hp HR. revert xs f; induction degs as [|q degs IH]; intros xs f HX HF; [reflexivity|].
  destruct xs as [|x xs]; [reflexivity|]. inversion HX; subst. cbn [dct].
  rewrite IH; auto.
  - apply dct_ext. intros m Hm. rewrite (dc_corner p), dc_corner_exact by auto. reflexivity.
  - intros m. rewrite (dc_corner p) by auto. destruct (Req_EM_T x 0); auto.
Qed.
Lemma c71_corners : forall p rnd d (s : spline (point R d)) xs, (0 < p)%nat -> nearest p rnd ->
  wf s -> length xs = length (degrees s) -> Forall (fun x => x = 0 \/ x = 1) xs ->
  Forall (fun c => forall k, (k < d)%nat -> representable p (coord d c k)) (control_points s) ->
  Evaluate_rnd rnd s xs = Ok (value_at s xs).
Proof.
  intros p rnd d s xs Hp HR Hw HL HX HC. unfold Evaluate_rnd. rewrite Evaluate_dct by auto. f_equal.
  apply (point_ext (o := SOps_R)). intros k Hk. rewrite coord_dct_rnd, coord_value by auto. rewrite <- dct_bezier by auto.
  rewrite (dct_corner p); auto. intros i. destruct (lt_dec i (length (control_points s))) as [Hi|Hi].
  - eapply Forall_forall in HC; [|apply nth_In; exact Hi]. auto.
  - rewrite nth_overflow by lia. change (v0 (V := point R d)) with (pconst d 0). rewrite (coord_const (o := SOps_R)) by auto. apply repr_0.
Qed.
Lemma c71_rounding_exists : forall p, (0 < p)%nat -> exists rnd, nearest p rnd.
Proof. intros p Hp. exists (round_to p). apply nearest_round_to; auto. Qed.

(** The only candidate. *)
Lemma nearest_unique p rnd v m e : (0 < p)%nat -> nearest p rnd -> (2 ^ Z.of_nat (p - 1) < Z.abs m < 2 ^ Z.of_nat p)%Z ->
  Rabs (IZR m * powerRZ 2 e - v) < / 2 * powerRZ 2 e -> rnd v = IZR m * powerRZ 2 e.
Proof.
  intros Hp HR Hm Hv. destruct (HR v) as ((m' & e' & Hm' & E) & HB).
  specialize (HB (IZR m * powerRZ 2 e) (ex_intro _ m (ex_intro _ e (conj (proj2 Hm) eq_refl)))).
  assert (D : Rabs (rnd v - IZR m * powerRZ 2 e) < powerRZ 2 e).
  { replace (rnd v - IZR m * powerRZ 2 e) with ((rnd v - v) + - (IZR m * powerRZ 2 e - v)) by ring.
    eapply Rle_lt_trans; [apply Rabs_triang|]. rewrite Rabs_Ropp. lra. }
  pose proof (two_pos e) as Pe. destruct (Z_le_gt_dec e e') as [He|He].
  - assert (E2 : rnd v = IZR (m' * 2 ^ Z.of_nat (Z.to_nat (e' - e))) * powerRZ 2 e).
    { rewrite E, mult_IZR, two_IZR, Rmult_assoc, <- two_add. do 2 f_equal. lia. }
    set (k := (m' * 2 ^ Z.of_nat (Z.to_nat (e' - e)))%Z) in *. rewrite E2 in *.
    replace (IZR k * powerRZ 2 e - IZR m * powerRZ 2 e) with (IZR (k - m) * powerRZ 2 e) in D by (rewrite minus_IZR; ring).
    rewrite Rabs_mult, (Rabs_right (powerRZ 2 e)) in D by lra. assert (D1 : Rabs (IZR (k - m)) < 1) by nra.
    rewrite <- abs_IZR in D1. apply lt_IZR in D1. replace k with m by lia. reflexivity.
  - exfalso. assert (L : Rabs (rnd v) < powerRZ 2 (Z.of_nat (p - 1)) * powerRZ 2 e).
    { rewrite E, Rabs_mult, (Rabs_right (powerRZ 2 e')) by (left; apply two_pos). rewrite <- abs_IZR.
      apply Rlt_le_trans with (powerRZ 2 (Z.of_nat p) * powerRZ 2 e').
      - apply Rmult_lt_compat_r; [apply two_pos|]. rewrite <- two_IZR. apply IZR_lt. auto.
      - rewrite <- !two_add. apply two_le. lia. }
    assert (U : (IZR (Z.abs m) - 1) * powerRZ 2 e < Rabs (rnd v)).
    { assert (Rabs (IZR m * powerRZ 2 e) <= Rabs (rnd v) + Rabs (rnd v - IZR m * powerRZ 2 e)).
      { replace (IZR m * powerRZ 2 e) with (rnd v + - (rnd v - IZR m * powerRZ 2 e)) at 1 by ring.
        eapply Rle_trans; [apply Rabs_triang|]. rewrite (Rabs_Ropp (rnd v - _)). lra. }
      rewrite Rabs_mult, (Rabs_right (powerRZ 2 e)), <- abs_IZR in H by lra. lra. }
    assert (G : powerRZ 2 (Z.of_nat (p - 1)) <= IZR (Z.abs m) - 1).
    { rewrite <- two_IZR, <- minus_IZR. apply IZR_le. lia. }
    apply (Rmult_le_compat_r (powerRZ 2 e)) in G; lra.
Qed.
(** A constant line in double precision. *)
Lemma c71_constant_inexact : exists (s : spline R) x, wf s /\ in_unit_box [x] /\ representable 53 x /\
  control_points s = [5; 5] /\ forall rnd, nearest 53 rnd -> Evaluate_rnd_s rnd s [x] = Ok (5 - / 2 ^ 50).
Proof.
  assert (P : forall a b, (0 <= b)%Z -> powerRZ 2 (a - b) = powerRZ 2 a / IZR (2 ^ b)).
  { intros a b Hb. replace (2 ^ b)%Z with (2 ^ Z.of_nat (Z.to_nat b))%Z by (rewrite Z2Nat.id; auto). rewrite two_IZR.
    rewrite Z2Nat.id by auto. unfold Z.sub, Rdiv. rewrite two_add. f_equal.
    apply (Rmult_eq_reg_r (powerRZ 2 b)); [|pose proof (two_pos b); lra]. rewrite <- two_add, Rinv_l by (pose proof (two_pos b); lra).
    replace (- b + b)%Z with 0%Z by lia. reflexivity. }
  assert (P50 : powerRZ 2 (-50) = / 1125899906842624) by (change (-50)%Z with (0 - 50)%Z; rewrite P by lia; simpl; lra).
  assert (P53 : powerRZ 2 (-53) = / 9007199254740992) by (change (-53)%Z with (0 - 53)%Z; rewrite P by lia; simpl; lra).
  assert (P55 : powerRZ 2 (-55) = / 36028797018963968) by (change (-55)%Z with (0 - 55)%Z; rewrite P by lia; simpl; lra).
  exists (mkSpline [1%nat] 2 [1%nat] [5; 5]), (3 * / 36028797018963968). split; [repeat split; discriminate|].
  split; [constructor; [lra|constructor]|]. split.
  { exists 3%Z, (-55)%Z. split; [reflexivity|]. rewrite P55. reflexivity. }
  split; [reflexivity|]. intros rnd HR. cbn. f_equal. set (x := 3 * / 36028797018963968).
  rewrite (nearest_unique 53 rnd (1 - x) 9007199254740991 (-53)); auto; [| lia |split; reflexivity|].
  2:{ rewrite P53. unfold x. apply Rabs_def1; lra. }
  rewrite (nearest_unique 53 rnd (_ * 5) 5629499534213119 (-50)); auto; [| lia |split; reflexivity|].
  2:{ rewrite P53, P50. apply Rabs_def1; lra. }
  rewrite (nearest_exact 53 rnd (x * 5)); auto.
  2:{ exists 15%Z, (-55)%Z. split; [reflexivity|]. unfold x. rewrite P55. lra. }
  rewrite (nearest_unique 53 rnd _ 5629499534213119 (-50)); auto; [| lia |split; reflexivity|].
  2:{ unfold x. rewrite P50. apply Rabs_def1; lra. }
  rewrite P50. lra.
Qed.

(** ** C72 *)
Lemma rnd_idem p rnd : nearest p rnd -> forall y, rnd (0 + rnd y) = rnd y.
Proof. intros HR y. rewrite Rplus_0_l. apply (nearest_exact p); auto. apply HR. Qed.
Lemma F2_nth {A B} (P : A -> B -> Prop) l m i a b : Forall2 P l m -> (i < length l)%nat -> P (nth i l a) (nth i m b).
Proof. intros H. revert i; induction H; intros [|i] Hi; simpl in *; try lia; auto. apply IHForall2. lia. Qed.
Lemma coord_vsum_rnd rnd d n (f : nat -> point R d) k : (k < d)%nat ->
  coord d (vsum (ov := Vr rnd d) n f) k = vsum (ov := Vs rnd) n (fun i => coord d (f i) k).
Proof.
  intros Hk. induction n; cbn [vsum].
  - apply (coord_const (o := SOps_R)). auto.
  - cbn [vadd VOps_scalar sadd SOps_rnd]. rewrite <- IHn. apply (coord_pmap2 (o := SOps_R) d (fun x y => rnd (x + y)) _ _ k Hk).
Qed.
Lemma vsum_ext_any {T V} {ov : VOps T V} n (f g : nat -> V) : (forall i, (i < n)%nat -> f i = g i) -> vsum n f = vsum n g.
Proof. induction n; intros H; cbn [vsum]; auto. rewrite IHn, H; auto. Qed.
Lemma combine_points_any {T V} {o : SOps T} {ov : VOps T V} (fs : list T) (c : list V) : (length fs <= length c)%nat ->
  combine_points fs c = Ok (vsum (length fs) (fun i => vscale (nth i fs s0) (nth i c v0))).
Proof.
  intros H. unfold combine_points.
  edestruct (for_up_inv (fun n acc => acc = vsum n (fun i => vscale (nth i fs s0) (nth i c v0)))) as (a & E & ->).
  3:{ rewrite E. reflexivity. }
  - reflexivity.
  - intros i a Hi ->. rewrite (get_ok s0) by lia. cbn [bind]. rewrite (get_ok v0) by lia.
    cbn [bind]. eexists; split; reflexivity.
Qed.

Lemma c72_basis : forall p rnd V MAXB (s : spline V) xs, (0 < p)%nat -> nearest p rnd -> (MAXB <= 68)%nat ->
  wf s -> length xs = length (degrees s) -> Forall (fun q => (q < MAXB)%nat) (degrees s) -> in_unit_box xs ->
  exists l l', BasisFunctions MAXB s xs = Ok l /\ BasisFunctions_rnd rnd MAXB s xs = Ok l' /\
    Forall2 (fun y x => 0 <= x /\ (1 - / 2 ^ p) ^ basis_roundings (degrees s) * x <= y <=
                        (1 + / 2 ^ p) ^ basis_roundings (degrees s) * x) l' l.
Proof.
  intros p rnd V MAXB s xs Hp HR HB Hw HL Hd HX.
  destruct (Basis_sr rnd (/ 2 ^ p) (unit_pos p) (nearest_error p rnd Hp HR) (unit_lt_1 p Hp) MAXB s xs) as (l' & E & F); auto.
  eexists; exists l'. split; [apply (BasisFunctions_ok MAXB HB s xs Hw HL Hd)|]. split; auto.
Qed.
Section Forward.
Context (p : nat) (rnd : R -> R) (Hp : (0 < p)%nat) (HR : nearest p rnd).
Lemma forward_err MAXB {V} (s : spline V) xs (c : nat -> R) : (MAXB <= 68)%nat ->
  wf s -> length xs = length (degrees s) -> Forall (fun q => (q < MAXB)%nat) (degrees s) -> in_unit_box xs ->
  exists l', BasisFunctions_rnd rnd MAXB s xs = Ok l' /\ length l' = n_coeffs (degrees s) /\
    Er ((1 + / 2 ^ p) ^ forward_roundings (degrees s))
      (vsum (ov := Vs rnd) (length l') (fun i => rnd (nth i l' 0 * c i)))
      (bezier (degrees s) xs c) (bezier (degrees s) xs (fun i => Rabs (c i))).
Proof using Hp HR.
  intros HB Hw HL Hd HX.
  destruct (Basis_sr rnd (/ 2 ^ p) (unit_pos p) (nearest_error p rnd Hp HR) (unit_lt_1 p Hp) MAXB s xs) as (l' & E & F); auto.
  exists l'. split; [exact E|]. assert (Ln : length l' = n_coeffs (degrees s)) by (rewrite (F2_length _ _ _ F), map_length, seq_length; auto).
  split; auto. rewrite Ln. rewrite !(bezier_flat (V := R)) by auto.
  apply (Accumulate_err rnd (/ 2 ^ p) (unit_pos p) (nearest_error p rnd Hp HR) (unit_lt_1 p Hp) 0 (basis_roundings (degrees s))
    (basis_at (degrees s) xs) (fun i => nth i l' 0) c (rnd_idem p rnd HR)).
  intros i Hi. rewrite <- (nth_map_seq (basis_at (degrees s) xs) (n_coeffs (degrees s)) i 0) by auto.
  apply (F2_nth _ _ _ i 0 0 F). lia.
Qed.
Lemma forward_rnd MAXB d (s : spline (point R d)) xs : (MAXB <= 68)%nat ->
  wf s -> length xs = length (degrees s) -> Forall (fun q => (q < MAXB)%nat) (degrees s) -> in_unit_box xs ->
  exists e, ForwardEvaluate_rnd rnd MAXB s xs = Ok e /\ forall k, (k < d)%nat ->
    Er ((1 + / 2 ^ p) ^ forward_roundings (degrees s)) (coord d e k) (coord d (value_at s xs) k) (magnitude s xs k).
Proof using Hp HR.
  intros HB Hw HL Hd HX.
  destruct (forward_err MAXB s xs (fun _ => 0) HB Hw HL Hd HX) as (l' & E & Ln & _).
  unfold ForwardEvaluate_rnd, ForwardEvaluate. unfold BasisFunctions_rnd in E. rewrite E. cbn [bind].
  rewrite combine_points_any by (destruct Hw as (_ & _ & _ & Lc); lia). eexists; split; [reflexivity|].
  intros k Hk. rewrite coord_vsum_rnd, coord_value by auto. unfold magnitude.
  destruct (forward_err MAXB s xs (fun i => coord d (nth i (control_points s) v0) k) HB Hw HL Hd HX) as (l2 & E2 & _ & H).
  unfold BasisFunctions_rnd in E2. assert (l2 = l') by congruence. subst l2.
  erewrite (vsum_ext_any (length l')); [exact H|]. intros i Hi. apply coord_scale_rnd. auto.
Qed.
Lemma forward_rnd_s MAXB (s : spline R) xs : (MAXB <= 68)%nat ->
  wf s -> length xs = length (degrees s) -> Forall (fun q => (q < MAXB)%nat) (degrees s) -> in_unit_box xs ->
  exists e, ForwardEvaluate_rnd_s rnd MAXB s xs = Ok e /\
    Er ((1 + / 2 ^ p) ^ forward_roundings (degrees s)) e (value_at s xs) (magnitude_s s xs).
Proof using Hp HR.
  intros HB Hw HL Hd HX.
  destruct (forward_err MAXB s xs (fun i => nth i (control_points s) 0) HB Hw HL Hd HX) as (l' & E & Ln & H).
  unfold ForwardEvaluate_rnd_s, ForwardEvaluate. unfold BasisFunctions_rnd in E. rewrite E. cbn [bind].
  rewrite combine_points_any by (destruct Hw as (_ & _ & _ & Lc); lia). eexists; split; [reflexivity|]. exact H.
Qed.
End Forward.

Lemma c72_forward : forall p rnd MAXB d (s : spline (point R d)) xs, (0 < p)%nat -> nearest p rnd -> (MAXB <= 68)%nat ->
  wf s -> length xs = length (degrees s) -> Forall (fun q => (q < MAXB)%nat) (degrees s) -> in_unit_box xs ->
  exists e, ForwardEvaluate_rnd rnd MAXB s xs = Ok e /\ forall k, (k < d)%nat ->
    Rabs (coord d e k - coord d (value_at s xs) k) <= gamma p (forward_roundings (degrees s)) * magnitude s xs k.
Proof.
  intros p rnd MAXB d s xs Hp HR HB Hw HL Hd HX. destruct (forward_rnd p rnd Hp HR MAXB d s xs) as (e & E & H); auto.
  exists e. split; auto. intros k Hk. apply (H k Hk).
Qed.
Lemma c72_forward_scalar : forall p rnd MAXB (s : spline R) xs, (0 < p)%nat -> nearest p rnd -> (MAXB <= 68)%nat ->
  wf s -> length xs = length (degrees s) -> Forall (fun q => (q < MAXB)%nat) (degrees s) -> in_unit_box xs ->
  exists e, ForwardEvaluate_rnd_s rnd MAXB s xs = Ok e /\
    Rabs (e - value_at s xs) <= gamma p (forward_roundings (degrees s)) * magnitude_s s xs.
Proof.
  intros p rnd MAXB s xs Hp HR HB Hw HL Hd HX. destruct (forward_rnd_s p rnd Hp HR MAXB s xs) as (e & E & H); auto.
  exists e. split; auto. apply H.
Qed.
Lemma c72_agreement : forall p rnd MAXB d (s : spline (point R d)) xs, (0 < p)%nat -> nearest p rnd -> (MAXB <= 68)%nat ->
  wf s -> length xs = length (degrees s) -> Forall (fun q => (q < MAXB)%nat) (degrees s) -> in_unit_box xs ->
  exists a b, Evaluate_rnd rnd s xs = Ok a /\ ForwardEvaluate_rnd rnd MAXB s xs = Ok b /\ forall k, (k < d)%nat ->
    Rabs (coord d a k - coord d b k) <=
      (gamma p (casteljau_roundings (degrees s)) + gamma p (forward_roundings (degrees s))) * magnitude s xs k.
Proof.
  intros p rnd MAXB d s xs Hp HR HB Hw HL Hd HX. destruct (c71_evaluate p rnd d s xs) as (a & Ea & Ha); auto.
  destruct (c72_forward p rnd MAXB d s xs) as (b & Eb & Hb); auto. exists a, b. split; auto. split; auto.
  intros k Hk. specialize (Ha k Hk). specialize (Hb k Hk).
  replace (coord d a k - coord d b k) with ((coord d a k - coord d (value_at s xs) k) + - (coord d b k - coord d (value_at s xs) k)) by ring.
  eapply Rle_trans; [apply Rabs_triang|]. rewrite Rabs_Ropp. lra.
Qed.

(** ** C73 *)
Lemma c73_rational : forall p rnd d (r : rspline R (point R d)) xs, (0 < p)%nat -> nearest p rnd ->
  rwf r -> length xs = length (rdegrees r) -> in_unit_box xs ->
  Forall (fun w => 0 < w) (control_points (weight_function r)) ->
  exists e, R_Evaluate_rnd rnd r xs = Ok e /\ forall k, (k < d)%nat ->
    Rabs (coord d e k - coord d (rvalue r xs) k) <=
    ((1 + / 2 ^ p) ^ (casteljau_roundings (rdegrees r) + 2) / (1 - / 2 ^ p) ^ casteljau_roundings (rdegrees r) - 1) *
    (magnitude (weighted_spline r) xs k / value_at (weight_function r) xs).
Proof.
  intros p rnd d r xs Hp HR (Hw1 & Hw2 & Hdeg) HL HX HW. unfold rdegrees in *. rewrite <- Hdeg in HL at 1.
  destruct (eval_rnd_pos p rnd Hp HR (weight_function r) xs Hw2 HL HX HW) as (w & Ew & Sw). rewrite Hdeg in HL.
  destruct (eval_rnd p rnd Hp HR d (weighted_spline r) xs Hw1 HL HX) as (e & Ee & He).
  set (u := / 2 ^ p) in *. assert (Hu : 0 <= u) by apply unit_pos. assert (Hu1 : u < 1) by (apply unit_lt_1; auto).
  pose proof (nearest_error p rnd Hp HR) as Hr. fold u in Hr. rewrite Hdeg in Sw. set (K := casteljau_roundings (degrees (weighted_spline r))) in *.
  assert (Pw : 0 < value_at (weight_function r) xs).
  { destruct Hw2 as (_ & _ & _ & Lc). unfold value_at. rewrite Hdeg in *. clear Sw.
    assert (Ex : exists m, 0 < m /\ forall i, (i < n_coeffs (degrees (weighted_spline r)))%nat -> m <= nth i (control_points (weight_function r)) 0).
    { rewrite <- Lc. clear - HW. induction HW as [|a l Ha HW (m & Hm & IH)]; [exists 1; split; [lra|]; intros; simpl in *; lia|].
      exists (Rmin a m). split; [apply Rmin_pos; auto|]. intros [|i] Hi; simpl in *; [apply Rmin_l|].
      eapply Rle_trans; [apply Rmin_r|]. apply IH. lia. }
    destruct Ex as (m & Hm & HH). cut (- bezier (degrees (weighted_spline r)) xs (fun i => nth i (control_points (weight_function r)) 0) <= - m).
    { intros Q. apply Rlt_le_trans with m; auto. apply Ropp_le_cancel. exact Q. }
    change (Ropp (bezier (degrees (weighted_spline r)) xs (fun i => nth i (control_points (weight_function r)) 0))) with
      (vopp (V := R) (bezier (degrees (weighted_spline r)) xs (fun i => nth i (control_points (weight_function r)) 0))).
    rewrite <- bezier_opp. apply magnitude_bound; auto. intros i Hi. specialize (HH i Hi). cbn. lra. }
  pose proof (Sr_pos u Hu1 K w _ Pw Sw) as Pw'.
  unfold R_Evaluate_rnd, R_Evaluate. unfold Evaluate_rnd in Ee. unfold Evaluate_rnd_s in Ew. rewrite Ee. cbn [bind]. rewrite Ew. cbn [bind].
  unfold vdiv, divS. cbn [seqb s0 SOps_rnd]. destruct (Req_EM_T w 0) as [Z|_]; [lra|]. cbn [bind]. eexists; split; [reflexivity|].
  intros k Hk. rewrite coord_scale_rnd by auto. cbn [sdiv s1 SOps_rnd]. specialize (He k Hk). fold u K in He.
  set (W := value_at (weight_function r) xs) in *.
  assert (I : Er (/ (1 - u) ^ K * (1 + u)) (rnd (1 / w)) (/ W) (/ W)).
  { unfold Rdiv. rewrite Rmult_1_l. apply Er_rnd; auto. apply Sr_inv; auto. }
  assert (G1 : 1 <= / (1 - u) ^ K).
  { assert (0 < (1 - u) ^ K) by (apply pow_lt; lra). apply Rle_trans with (/ 1); [rewrite Rinv_1; lra|]. apply Rinv_le_contravar; auto.
    apply Rle_trans with (1 ^ K); [apply pow_incr; lra|rewrite pow1; lra]. }
  assert (Q : Er (/ (1 - u) ^ K * (1 + u) * (1 + u) ^ K * (1 + u)) (rnd (rnd (1 / w) * coord d e k)) (/ W * coord d (value_at (weighted_spline r) xs) k)
    (/ W * magnitude (weighted_spline r) xs k)).
  { apply Er_rnd; auto. apply (Er_mul (/ (1 - u) ^ K * (1 + u)) ((1 + u) ^ K)); auto; [nra|]. apply pow_R1_Rle. lra. }
  destruct Q as (Q & _).
  replace (coord d (rvalue r xs) k) with (/ W * coord d (value_at (weighted_spline r) xs) k).
  2:{ unfold rvalue. rewrite coord_scale. fold W. cbn. field. lra. }
  eapply Rle_trans; [exact Q|]. right. unfold Rdiv. rewrite pow_add. simpl ((1 + u) ^ 2). ring.
Qed.
(** The scale of that bound: the largest coordinate of the control points. *)
Lemma c73_magnitude : forall d (r : rspline R (point R d)) xs k M, rwf r -> length xs = length (rdegrees r) -> in_unit_box xs ->
  0 < value_at (weight_function r) xs ->
  (forall i, (i < n_coeffs (rdegrees r))%nat ->
     Rabs (coord d (nth i (control_points (weighted_spline r)) v0) k) <= M * nth i (control_points (weight_function r)) 0) ->
  magnitude (weighted_spline r) xs k / value_at (weight_function r) xs <= M.
Proof.
  intros d r xs k M (Hw1 & Hw2 & Hdeg) HL HX Pw H. unfold rdegrees in *.
  apply (Rmult_le_reg_r (value_at (weight_function r) xs)); auto. unfold Rdiv. rewrite Rmult_assoc, Rinv_l, Rmult_1_r by lra.
  unfold magnitude, value_at. rewrite Hdeg. set (degs := degrees (weighted_spline r)) in *.
  assert (D : 0 <= bezier degs xs (fun i => vsub (V := R) (vscale (V := R) M (nth i (control_points (weight_function r)) v0))
    (Rabs (coord d (nth i (control_points (weighted_spline r)) v0) k)))).
  { rewrite <- dct_bezier by auto. apply dct_nonneg; auto. intros i Hi. apply Rge_le, Rge_minus, Rle_ge. exact (H i Hi). }
  rewrite bezier_sub, bezier_scale in D. cbn [vsub vscale VOps_scalar smul ssub SOps_R] in D. lra.
Qed.
