(** Corners and composition of rational splines. *)
From Coq Require Import Arith Lia List ZArith NArith Bool Ring Field QArith Qcanon.
From Verif Require Import Prelude Scalar Spec SpecSpline Sums Order Coord ModelBasis ModelSpline ModelPoint
  Examples ProofIndex ProofBasis ProofEval ProofElevate ProofUnique ClaimsA ProofArith ClaimsB ProofCube ClaimsC
  ProofMul ProofSplit ClaimsD ProofCompose ClaimsE ModelRational SpecRational ProofRational ProofRational2.
Import ListNotations.
Local Open Scope nat_scope.

Lemma mul_1_map l : map (Nat.mul 1) l = l.
Proof. rewrite <- (map_id l) at 2. apply map_ext. intros; lia. Qed.

Section Corners.
Context {T : Type} {o : SOps T} {F : SField T} {d : nat}.
Add Field Tfield : (@sf_th T o F).

(** Weight and coordinate [k] of control point [i]. *)
Definition rw (r : rspline T (point T d)) (i : nat) : T := nth i (control_points (weight_function r)) s0.
Definition rcp (r : rspline T (point T d)) (i : nat) : point T d :=
  vscale (sdiv s1 (rw r i)) (nth i (control_points (weighted_spline r)) v0).

Definition weights_nz (r : rspline T (point T d)) : Prop :=
  forall i, i < n_coeffs (rdegrees r) -> rw r i <> s0.

Lemma R_ControlPoint_ok (r : rspline T (point T d)) idx : rwf r -> valid_index (rdegrees r) idx ->
  R_ControlPoint r idx = (if seqb (rw r (position (rdegrees r) idx)) s0 then NonFinite
                          else Ok (rcp r (position (rdegrees r) idx))).
Proof.
  intros (Hu & Hw & Hd) Hv. unfold R_ControlPoint, rdegrees in *.
  rewrite (ControlPoint_ok v0) by auto. cbn [bind].
  rewrite (ControlPoint_ok s0) by (auto; rewrite Hd; auto). cbn [bind]. rewrite Hd.
  unfold vdiv, divS, rcp, rw. destruct (seqb _ _); reflexivity.
Qed.

Lemma seqb_false (a b : T) : a <> b -> seqb a b = false.
Proof. intros H. destruct (seqb a b) eqn:E; auto. apply sf_eqb in E. congruence. Qed.

Lemma R_ControlPoint_nz (r : rspline T (point T d)) idx : rwf r -> weights_nz r ->
  valid_index (rdegrees r) idx -> R_ControlPoint r idx = Ok (rcp r (position (rdegrees r) idx)).
Proof.
  intros Hr Hz Hv. rewrite R_ControlPoint_ok by auto. rewrite seqb_false; auto.
  apply Hz. apply position_lt. auto.
Qed.

Lemma index_of_0 degs : position degs (index_of degs 0) = 0.
Proof. apply position_index_of. apply n_coeffs_pos. Qed.

Lemma R_Corner_ok pick (r : rspline T (point T d)) : rwf r -> weights_nz r ->
  exists m, R_Corner pick r = Ok m /\ forall k, k < d ->
    coord d m k = pickn pick (fun i => coord d (rcp r i) k) (n_coeffs (rdegrees r) - 1).
Proof.
  intros Hr Hz. pose proof Hr as (Hu & Hw & Hd). unfold R_Corner.
  pose proof Hu as (_ & Hn & _ & Hc). pose proof Hw as (_ & _ & _ & Hcw).
  rewrite Hn. fold (rdegrees r) in *. pose proof (n_coeffs_pos (rdegrees r)) as Hp.
  rewrite (proj2 (Nat.eqb_neq _ 0)) by lia.
  rewrite LocalToGlobal_ok by auto. cbn [bind]. rewrite Hd.
  rewrite (R_ControlPoint_nz r) by (auto; apply index_of_valid). cbn [bind]. rewrite index_of_0.
  edestruct (for_up_inv (fun n m => forall k, k < d ->
    coord d m k = pickn pick (fun i => coord d (rcp r i) k) (n - 1))) as (m & E & H).
  3:{ exists m. split; [exact E|]. intros k Hk. rewrite H by auto. f_equal. lia. }
  - intros k Hk. reflexivity.
  - cbv beta. intros n m Hn' H.
    rewrite (get_ok v0) by lia. cbn [bind]. rewrite (get_ok s0) by (rewrite Hcw, Hd; lia). cbn [bind].
    rewrite vdiv_ok by (apply Hz; lia). cbn [bind].
    change (vscale (sdiv s1 (nth n (control_points (weight_function r)) s0)) (nth n (control_points (weighted_spline r)) v0))
      with (rcp r n).
    edestruct (point_loop d (fun k a => do b <- pget d (rcp r n) k; Ok (pick a b))
      (fun k => pick (coord d m k) (coord d (rcp r n) k)) m) as (m' & E & Hm').
    { intros k Hk. rewrite pget_ok by auto. reflexivity. }
    exists m'. split.
    + rewrite <- E. apply for_up_ext. intros k a _.
      destruct (pget d a k); auto. cbn [bind]. destruct (pget d (rcp r n) k); auto.
    + intros k Hk. rewrite Hm', H by auto. replace (S n - 1) with (S (n - 1)) by lia. cbn [pickn].
      replace (S (n - 1)) with n by lia. reflexivity.
Qed.

Context {O : SOrder T}.
Lemma r_corner_max (r : rspline T (point T d)) : rwf r -> weights_nz r ->
  exists m, R_MaximumCorner r = Ok m /\ forall k, k < d ->
    (forall i, i < n_coeffs (rdegrees r) -> sle (coord d (rcp r i) k) (coord d m k)) /\
    exists i, i < n_coeffs (rdegrees r) /\ coord d (rcp r i) k = coord d m k.
Proof.
  intros Hr Hz. pose proof (n_coeffs_pos (rdegrees r)). destruct (R_Corner_ok smax r Hr Hz) as (m & E & H0).
  exists m. split; [exact E|]. intros k Hk. rewrite H0 by auto.
  destruct (pickn_max (fun i => coord d (rcp r i) k) (n_coeffs (rdegrees r) - 1)) as (H1 & (j & Hj & Ej)).
  split; [intros; apply H1; lia|]. exists j. split; [lia|auto].
Qed.
Lemma r_corner_min (r : rspline T (point T d)) : rwf r -> weights_nz r ->
  exists m, R_MinimumCorner r = Ok m /\ forall k, k < d ->
    (forall i, i < n_coeffs (rdegrees r) -> sle (coord d m k) (coord d (rcp r i) k)) /\
    exists i, i < n_coeffs (rdegrees r) /\ coord d (rcp r i) k = coord d m k.
Proof.
  intros Hr Hz. pose proof (n_coeffs_pos (rdegrees r)). destruct (R_Corner_ok smin r Hr Hz) as (m & E & H0).
  exists m. split; [exact E|]. intros k Hk. rewrite H0 by auto.
  destruct (pickn_min (fun i => coord d (rcp r i) k) (n_coeffs (rdegrees r) - 1)) as (H1 & (j & Hj & Ej)).
  split; [intros; apply H1; lia|]. exists j. split; [lia|auto].
Qed.

Lemma R_Fits_ok (r : rspline T (point T d)) : rwf r -> weights_nz r ->
  exists b, R_FitsIntoUnitCube r = Ok b /\
    (b = true <-> forall i k, i < n_coeffs (rdegrees r) -> k < d -> in_unit (coord d (rcp r i) k)).
Proof.
  intros Hr Hz. unfold R_FitsIntoUnitCube.
  destruct (r_corner_max r Hr Hz) as (mx & -> & Hx). destruct (r_corner_min r Hr Hz) as (mn & -> & Hm). cbn [bind].
  destruct (corners_fit_ok mx mn) as (b & -> & H). exists b. split; auto. rewrite H. split.
  - intros A i k Hi Hk. destruct (A k Hk). destruct (Hx k Hk) as (X & _). destruct (Hm k Hk) as (Y & _).
    split; eapply sle_trans; eauto.
  - intros A k Hk. destruct (Hx k Hk) as (_ & (i & Hi & <-)). destruct (Hm k Hk) as (_ & (j & Hj & <-)).
    split; apply A; auto.
Qed.

Lemma unit_coords (p : point T d) : Forall in_unit (plist d p) <-> forall k, k < d -> in_unit (coord d p k).
Proof.
  split.
  - intros H k Hk. rewrite Forall_forall in H. apply H. apply nth_In. rewrite plist_length. auto.
  - intros H. apply Forall_forall. intros x Hx. destruct (In_nth _ _ s0 Hx) as (k & Hk & <-).
    rewrite plist_length in Hk. apply H. auto.
Qed.

Lemma in_unit_cube_iff (r : rspline T (point T d)) : rwf r ->
  (in_unit_cube r <-> weights_nz r /\ forall i k, i < n_coeffs (rdegrees r) -> k < d -> in_unit (coord d (rcp r i) k)).
Proof.
  intros Hr. split.
  - intros H. assert (A : forall i, i < n_coeffs (rdegrees r) -> rw r i <> s0 /\ forall k, k < d -> in_unit (coord d (rcp r i) k)).
    { intros i Hi. destruct (H (index_of (rdegrees r) i) (index_of_valid _ _)) as (p & E & HP).
      rewrite R_ControlPoint_ok in E by (auto; apply index_of_valid). rewrite position_index_of in E by auto.
      destruct (seqb (rw r i) s0) eqn:E2; [discriminate|]. injection E as <-. split.
      - intros C. apply sf_eqb in C. congruence.
      - apply unit_coords. auto. }
    split; [intros i Hi; apply A; auto|]. intros i k Hi. apply A; auto.
  - intros (Hz & A) idx Hv. exists (rcp r (position (rdegrees r) idx)). split; [apply R_ControlPoint_nz; auto|].
    apply unit_coords. intros k Hk. apply A; auto. apply position_lt; auto.
Qed.

Lemma R_Fits_true (r : rspline T (point T d)) : rwf r -> in_unit_cube r -> R_FitsIntoUnitCube r = Ok true.
Proof.
  intros Hr H. destruct (proj1 (in_unit_cube_iff r Hr) H) as (Hz & A).
  destruct (R_Fits_ok r Hr Hz) as (b & E & Hb). rewrite E. f_equal. apply Hb. exact A.
Qed.

(** ** Bounds on the values for positive weights *)
Lemma weight_pos (w : spline T) (xs : list T) : wf w -> length xs = length (degrees w) -> Forall in_unit xs ->
  Forall (fun c => slt s0 c) (control_points w) -> slt s0 (value_at w xs).
Proof.
  intros Hw HX HU HP. set (f := fun i => nth i (control_points w) s0).
  destruct (pickn_min f (n_coeffs (degrees w) - 1)) as (H1 & (j & Hj & Ej)).
  pose proof (n_coeffs_pos (degrees w)). pose proof Hw as (_ & _ & _ & Hc).
  assert (Hm : slt s0 (pickn smin f (n_coeffs (degrees w) - 1))).
  { rewrite <- Ej. rewrite Forall_forall in HP. apply HP. apply nth_In. lia. }
  apply (slt_le_trans _ _ _ Hm). unfold value_at. rewrite <- (bezier_const (degrees w) xs (V := T) _ HX).
  apply bezier_mono; auto. intros i Hi. apply H1. lia.
Qed.

Lemma R_bounds (r : rspline T (point T d)) xs k lo hi : rwf r -> length xs = length (rdegrees r) ->
  Forall in_unit xs -> Forall (fun c => slt s0 c) (control_points (weight_function r)) ->
  (forall i, i < n_coeffs (rdegrees r) -> sle lo (coord d (rcp r i) k) /\ sle (coord d (rcp r i) k) hi) ->
  sle lo (coord d (rvalue r xs) k) /\ sle (coord d (rvalue r xs) k) hi.
Proof.
  intros Hr HX HU HP HB. pose proof Hr as (Hu & Hw & Hd).
  assert (HW : slt s0 (value_at (weight_function r) xs)).
  { apply weight_pos; auto. unfold rdegrees in HX. congruence. }
  assert (Hpos : forall i, i < n_coeffs (rdegrees r) -> slt s0 (rw r i)).
  { intros i Hi. rewrite Forall_forall in HP. apply HP. apply nth_In. destruct Hw as (_ & _ & _ & ->). now rewrite Hd. }
  assert (Hcp : forall i, i < n_coeffs (rdegrees r) ->
    coord d (nth i (control_points (weighted_spline r)) v0) k = smul (rw r i) (coord d (rcp r i) k)).
  { intros i Hi. unfold rcp. rewrite coord_scale. field. apply not_eq_sym. apply slt_neq. auto. }
  unfold rvalue. rewrite coord_scale.
  replace (smul (sdiv s1 (value_at (weight_function r) xs)) (coord d (value_at (weighted_spline r) xs) k))
    with (sdiv (coord d (value_at (weighted_spline r) xs) k) (value_at (weight_function r) xs))
    by (field; apply not_eq_sym, slt_neq; auto).
  rewrite sle_div_iff, sle_div_iff' by auto.
  assert (E : forall c, smul (value_at (weight_function r) xs) c = bezier (rdegrees r) xs (fun i => smul (rw r i) c)).
  { intros c. unfold value_at. rewrite Hd.
    transitivity (smul c (bezier (rdegrees r) xs (fun i => rw r i))).
    - unfold rw, rdegrees. cbn [v0 VOps_scalar]. ring.
    - transitivity (bezier (rdegrees r) xs (fun i => smul c (rw r i))).
      + symmetry. exact (bezier_scale (V := T) (rdegrees r) xs c (fun i => rw r i)).
      + apply bezier_ext. intros i _. ring. }
  rewrite !E. unfold value_at. rewrite coord_bezier. split; (apply bezier_mono; auto; intros i Hi);
    rewrite Hcp by exact Hi; (apply sle_mul_l; [apply slt_sle; auto|apply HB; auto]).
Qed.
End Corners.

(** ** Composition *)
Section Comp.
Context {T : Type} {o : SOps T} {F : SField T}.
Add Field Tfield2 : (@sf_th T o F).
Context (MAXB : nat) (HB : MAXB <= 68) (d : nat) (inner : rspline T (point T d)) (Hi : rwf inner).
Context (Hsz : (Z.of_nat (n_coeffs (rdegrees inner)) < 2 ^ 31)%Z).
Context (fuel : nat) (Hfuel : list_max (rdegrees inner) + 1 < fuel).

Definition rfc (k : nat) (xs : list T) : T := coord d (value_at (weighted_spline inner) xs) k.
Definition rfi (k : nat) (xs : list T) : T := ssub (value_at (weight_function inner) xs) (rfc k xs).

Lemma rextract k : k < d ->
  exists c ic, R_ExtractDimension inner k = Ok c /\ inverse_rational fuel (weight_function inner) c = Ok ic /\
    rep (rdegrees inner) c 1 (rfc k) /\ rep (rdegrees inner) ic 1 (rfi k).
Proof.
  intros Hk. destruct Hi as (Hu & Hw & Hd). unfold R_ExtractDimension, rdegrees in *.
  destruct (ExtractDimension_ok (weighted_spline inner) k Hu Hk) as (c & E & Hc & Dc & HC).
  assert (HV : forall xs : list T, value_at c xs = rfc k xs).
  { intros xs. unfold rfc, value_at. rewrite coord_bezier, Dc. apply bezier_ext. intros i Hx. rewrite HC.
    destruct Hu as (_ & _ & _ & HL).
    rewrite (nth_indep _ v0 (coord d v0 k)) by (rewrite map_length; lia).
    apply (map_nth (fun p => coord d p k)). }
  destruct (sub_same (V := T) fuel (weight_function inner) c) as (ic & E2 & _ & Hic & D2 & V2); auto; try congruence;
    try (rewrite Hd; auto).
  exists c, ic. split; auto. split; [exact E2|].
  rewrite <- (mul_1_map (degrees (weighted_spline inner))) in Dc.
  split.
  - split; auto.
  - split; auto. split; [rewrite D2, Hd, mul_1_map; auto|]. intros xs HX. rewrite V2 by congruence.
    rewrite HV. reflexivity.
Qed.

Section Outer.
Context {V : Type} {ov : VOps T V} {M : VMod T V}.
Context (outer : spline V) (Ho : wf outer) (Hdim : length (degrees outer) = d).
Context (HF : Forall (fun p => list_sum (degrees outer) * p < MAXB) (rdegrees inner)).
Context (HM : Forall (fun p => p < MAXB) (degrees outer)).

Lemma rsum_fits : fits MAXB (rdegrees inner) (sum_degrees outer).
Proof. unfold fits, sum_degrees. rewrite fold_sum. exact HF. Qed.

Lemma rextract_all : forall k, k < length (degrees outer) ->
  exists c ic, R_ExtractDimension inner k = Ok c /\ inverse_rational fuel (weight_function inner) c = Ok ic /\
    rep (rdegrees inner) c 1 (rfc k) /\ rep (rdegrees inner) ic 1 (rfi k).
Proof. intros k Hk. apply rextract; auto. lia. Qed.

Lemma rhweight i xs : rdomain inner xs ->
  hweight rfc rfi (degrees outer) i xs =
  smul (spow (value_at (weight_function inner) xs) (list_sum (degrees outer)))
       (basis_at (degrees outer) (plist d (rvalue inner xs)) i).
Proof.
  intros (HX & H0). rewrite <- fold_sum.
  apply (hweight_rational rfc rfi outer i xs (value_at (weight_function inner) xs)); auto.
  - rewrite plist_length. auto.
  - intros k Hk. split; [|reflexivity]. unfold rfc.
    change (nth k (plist d (rvalue inner xs)) s0) with (coord d (rvalue inner xs) k).
    unfold rvalue. rewrite coord_scale. field. auto.
Qed.

Lemma NumR_ok : exists r, ComposeNumerator_R MAXB fuel outer inner = Ok r /\ wf r /\
  degrees r = map (Nat.mul (list_sum (degrees outer))) (rdegrees inner) /\
  forall xs, rdomain inner xs -> value_at r xs =
    vscale (spow (value_at (weight_function inner) xs) (list_sum (degrees outer)))
      (value_at outer (plist d (rvalue inner xs))).
Proof.
  unfold ComposeNumerator_R. pose proof Hi as (Hu & Hw & Hd).
  destruct (ComposeNumerator_ok MAXB HB (rdegrees inner) ltac:(apply Hu) outer Ho (R_ExtractDimension inner)
    (inverse_rational fuel (weight_function inner)) rfc rfi rextract_all rsum_fits HM) as (r & E & Hr & Dr & HV).
  exists r. split; auto. split; auto. split; [rewrite Dr; unfold sum_degrees; rewrite fold_sum; auto|].
  intros xs HX. rewrite HV by apply HX. unfold value_at at 2.
  rewrite bezier_flat by (rewrite plist_length; auto). rewrite <- vsum_scale. apply vsum_ext. intros i Hx.
  rewrite rhweight by auto. apply vm_mul.
Qed.

Lemma SensR_ok : exists ts, ComposeNumeratorSensitivity_R MAXB fuel outer inner = Ok ts /\
  length ts = n_coeffs (degrees outer) /\
  forall i, i < n_coeffs (degrees outer) -> exists t, nth_error ts i = Some t /\ wf t /\
    degrees t = map (Nat.mul (list_sum (degrees outer))) (rdegrees inner) /\
    forall xs, rdomain inner xs -> value_at t xs =
      smul (spow (value_at (weight_function inner) xs) (list_sum (degrees outer)))
       (basis_at (degrees outer) (plist d (rvalue inner xs)) i).
Proof.
  unfold ComposeNumeratorSensitivity_R. pose proof Hi as (Hu & Hw & Hd).
  destruct (ComposeSensitivity_num_ok MAXB HB (rdegrees inner) ltac:(apply Hu) outer Ho (R_ExtractDimension inner)
    (inverse_rational fuel (weight_function inner)) rfc rfi rextract_all rsum_fits HM) as (ts & E & HL & HN).
  exists ts. split; auto. split; auto. intros i Hx. destruct (HN i Hx) as (t & Et & Ht & Dt & HV).
  exists t. split; auto. split; auto. split; [rewrite Dt; unfold sum_degrees; rewrite fold_sum; auto|].
  intros xs HX. rewrite HV by apply HX. apply rhweight. auto.
Qed.

Lemma DenR_ok : exists w, ComposeDenominator MAXB outer inner = Ok w /\ wf w /\
  degrees w = map (Nat.mul (list_sum (degrees outer))) (rdegrees inner) /\
  forall xs, length xs = length (rdegrees inner) ->
    value_at w xs = spow (value_at (weight_function inner) xs) (list_sum (degrees outer)).
Proof.
  unfold ComposeDenominator. destruct Hi as (Hu & Hw & Hd). unfold sum_degrees. rewrite fold_sum.
  destruct (RaisePower_ok MAXB HB (weight_function inner) (list_sum (degrees outer)) Hw) as (w & E & Ww & Dw & HV).
  { rewrite Hd. exact HF. }
  exists w. split; auto. split; auto. split; [rewrite Dw, Hd; auto|]. intros xs HX. apply HV. rewrite Hd. exact HX.
Qed.
End Outer.

Lemma spow_nz (x : T) n : x <> s0 -> spow x n <> s0.
Proof.
  intros H. induction n; simpl; [exact s1_neq0|]. intros C. apply IHn.
  replace (spow x n) with (sdiv (smul x (spow x n)) x) by (field; auto). rewrite C. field. auto.
Qed.
End Comp.
