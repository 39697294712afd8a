(** Claims about scalar-valued splines: corners, the unit interval, composition. *)
From Coq Require Import Arith Lia List ZArith NArith Bool Ring Field QArith Qcanon.
From Verif Require Import Prelude Scalar Spec SpecSpline Sums Order Coord ModelBasis ModelSpline ModelPoint
  Examples ProofIndex ProofBasis ProofEval ProofElevate ProofUnique ClaimsA ProofArith ClaimsB ProofCube ClaimsC
  ClaimsE ModelRational SpecRational ProofRational ProofRational3 ClaimsG ClaimsH ModelScalar ProofScalar.
Import ListNotations.
Local Open Scope nat_scope.

Lemma mapr_inv {A B} (f : A -> B) (m : res A) b : mapr f m = Ok b -> exists a, m = Ok a /\ b = f a.
Proof. destruct m; cbn; intros E; try discriminate. injection E as <-. eauto. Qed.

Ltac unlift H :=
  let a := fresh "a" in let E := fresh "E" in
  apply mapr_inv in H; destruct H as (a & H & E); try subst.

(** ** C62 *)
Lemma c62_extract : forall (T : Type) (s : spline T) (k : nat),
  ExtractDimension_s s 0 = Ok s /\ (0 < k -> ExtractDimension_s s k = Throw).
Proof. intros T s k. split; [reflexivity|]. intros Hk. destruct k; [lia|reflexivity]. Qed.

Lemma c62_bounding_box : forall (T : Type) (o : SOps T) (F : SField T) (O : SOrder T)
  (s : spline T) (xs : list T),
  wf s -> length xs = length (degrees s) -> Forall in_unit xs ->
  exists p lo hi, Evaluate s xs = Ok p /\ MinimumCorner_s s = Ok lo /\ MaximumCorner_s s = Ok hi /\
    sle lo p /\ sle p hi.
Proof.
  intros T o F O s xs Hw HX HU.
  destruct (c12_bounding_box T o F O 1 (lift s) xs (wf_lift s Hw) HX HU) as (p & lo & hi & E1 & E2 & E3 & H).
  rewrite lift_evaluate in E1 by auto. unfold MinimumCorner in E2. unfold MaximumCorner in E3.
  rewrite lift_corner in E2, E3. unlift E1. unlift E2. unlift E3.
  exists a, a0, a1. do 3 (split; [auto|]). apply (H 0). lia.
Qed.

Lemma c62_corners : forall (T : Type) (o : SOps T) (F : SField T) (O : SOrder T) (s : spline T), wf s ->
  exists lo hi, MinimumCorner_s s = Ok lo /\ MaximumCorner_s s = Ok hi /\
    (forall p, In p (control_points s) -> sle lo p /\ sle p hi) /\
    In lo (control_points s) /\ In hi (control_points s).
Proof.
  intros T o F O s Hw.
  destruct (c25_corners T o F O 1 (lift s) (wf_lift s Hw)) as (lo & hi & E2 & E3 & H).
  unfold MinimumCorner in E2. unfold MaximumCorner in E3.
  rewrite lift_corner in E2, E3. unlift E2. unlift E3.
  exists a, a0. do 2 (split; [auto|]). destruct (H 0) as (A & (p & Hp & B) & (q & Hq & C)); [lia|].
  cbn [lift control_points] in *. apply in_map_iff in Hp, Hq.
  destruct Hp as (p' & <- & Hp). destruct Hq as (q' & <- & Hq). rewrite !coord_emb in *. subst.
  split; [|auto]. intros r Hr. apply (A (emb r)). apply in_map; auto.
Qed.

Lemma c62_fits_exact : forall (T : Type) (o : SOps T) (F : SField T) (O : SOrder T) (s : spline T), wf s ->
  exists b, FitsIntoUnitCube_s s = Ok b /\ (b = true <-> Forall in_unit (control_points s)).
Proof.
  intros T o F O s Hw.
  destruct (c25_fits_exact T o F O 1 (lift s) (wf_lift s Hw)) as (b & E & H).
  rewrite lift_fits in E. exists b. split; [auto|]. rewrite H. rewrite Forall_forall. split.
  - intros A p Hp. apply (A (emb p) 0); [apply in_map; auto|lia].
  - intros A p k Hp Hk. cbn in Hp. apply in_map_iff in Hp. destruct Hp as (p' & <- & Hp).
    replace k with 0 by lia. apply A; auto.
Qed.

Lemma c62_fit : forall (T : Type) (o : SOps T) (F : SField T) (O : SOrder T) (s : spline T), wf s ->
  (exists p q, In p (control_points s) /\ In q (control_points s) /\ p <> q) ->
  exists r lo hi, FitIntoUnitCube_s s = Ok r /\ wf r /\ degrees r = degrees s /\
    FitsIntoUnitCube_s r = Ok true /\ slt lo hi /\
    (forall i, i < length (control_points s) ->
       nth i (control_points r) s0 = sdiv (ssub (nth i (control_points s) s0) lo) (ssub hi lo) /\
       in_unit (nth i (control_points r) s0)) /\
    In s0 (control_points r) /\ In s1 (control_points r).
Proof.
  intros T o F O s Hw (p & q & Hp & Hq & Hn).
  destruct (c26_fit T o F O 1 (lift s) (wf_lift s Hw)) as (r & lo & hi & E & Hr & Dr & Fr & H).
  { intros k Hk. replace k with 0 by lia. exists (emb p), (emb q). cbn [lift control_points].
    split; [apply in_map; auto|]. split; [apply in_map; auto|]. exact Hn. }
  rewrite lift_fit in E. unlift E. rewrite lift_fits in Fr.
  destruct (H 0) as (A & B & (x & Hx & X) & (y & Hy & Y)); [lia|].
  exists a, (coord 1 lo 0), (coord 1 hi 0). split; [auto|].
  split. { destruct Hr as (R1 & R2 & R3 & R4). repeat split; auto. cbn in R4. now rewrite map_length in R4. }
  do 3 (split; [auto|]). split.
  - intros i Hi. assert (Hi' : i < length (control_points (lift s))) by (cbn; now rewrite map_length).
    destruct (B i Hi') as (B1 & B2). cbn [lift control_points] in B1, B2.
    change (@v0 T (point T 1) _) with (emb (s0 : T)) in B1, B2. rewrite !map_nth in B1. rewrite map_nth in B2. auto.
  - cbn [lift control_points] in Hx, Hy. apply in_map_iff in Hx, Hy.
    destruct Hx as (x' & <- & Hx). destruct Hy as (y' & <- & Hy). rewrite coord_emb in X, Y. subst. auto.
Qed.

Lemma c62_flat : forall (T : Type) (o : SOps T) (F : SField T) (O : SOrder T) (s : spline T), wf s ->
  (forall p q, In p (control_points s) -> In q (control_points s) -> p = q) ->
  FitIntoUnitCube_s s = NonFinite.
Proof.
  intros T o F O s Hw H.
  assert (E : FitIntoUnitCube (lift s) = NonFinite).
  { apply (c27_flat_always T o F O 1 (lift s) 0); [apply wf_lift; auto|lia|].
    intros p q Hp Hq. cbn in Hp, Hq. apply in_map_iff in Hp, Hq.
    destruct Hp as (p' & <- & Hp). destruct Hq as (q' & <- & Hq). rewrite !coord_emb. auto. }
  rewrite lift_fit in E. destruct (FitIntoUnitCube_s s); try discriminate; auto.
Qed.

Lemma c62_empty : forall (T : Type) (o : SOps T) (s : spline T), number_of_control_points s = 0 ->
  MinimumCorner_s s = Throw /\ MaximumCorner_s s = Throw /\ FitsIntoUnitCube_s s = Throw /\ FitIntoUnitCube_s s = Throw.
Proof.
  intros T o s H. unfold FitsIntoUnitCube_s, FitIntoUnitCube_s, MinimumCorner_s, MaximumCorner_s, Corner_s.
  rewrite H. auto.
Qed.

(** ** C63 *)
Lemma c63_bounds : forall (T : Type) (o : SOps T) (F : SField T) (O : SOrder T) (r : rspline T T) (xs : list T),
  rwf r -> length xs = length (rdegrees r) -> Forall in_unit xs ->
  Forall (fun w => slt s0 w) (control_points (weight_function r)) ->
  exists p lo hi, R_Evaluate r xs = Ok p /\ R_MinimumCorner_s r = Ok lo /\ R_MaximumCorner_s r = Ok hi /\
    sle lo p /\ sle p hi.
Proof.
  intros T o F O r xs Hw HX HU HW.
  destruct (c44_bounds T o F O 1 (rlift r) xs (rwf_rlift r Hw) HX HU HW) as (p & lo & hi & E1 & E2 & E3 & H).
  rewrite rlift_evaluate in E1 by auto. unfold R_MinimumCorner in E2. unfold R_MaximumCorner in E3.
  rewrite rlift_corner in E2, E3. unlift E1. unlift E2. unlift E3.
  exists a, a0, a1. do 3 (split; [auto|]). apply (H 0). lia.
Qed.

Lemma c63_corners : forall (T : Type) (o : SOps T) (F : SField T) (O : SOrder T) (r : rspline T T), rwf r ->
  Forall (fun w => w <> s0) (control_points (weight_function r)) ->
  exists lo hi, R_MinimumCorner_s r = Ok lo /\ R_MaximumCorner_s r = Ok hi /\
    (forall idx, valid_index (rdegrees r) idx -> exists p, R_ControlPoint r idx = Ok p /\ sle lo p /\ sle p hi) /\
    (exists idx, valid_index (rdegrees r) idx /\ R_ControlPoint r idx = Ok lo) /\
    (exists idx, valid_index (rdegrees r) idx /\ R_ControlPoint r idx = Ok hi).
Proof.
  intros T o F O r Hw HW.
  destruct (c44_corners T o F O 1 (rlift r) (rwf_rlift r Hw) HW) as (lo & hi & E2 & E3 & H).
  unfold R_MinimumCorner in E2. unfold R_MaximumCorner in E3.
  rewrite rlift_corner in E2, E3. unlift E2. unlift E3.
  destruct (H 0) as (A & (i & p & Hi & Ep & B) & (j & q & Hj & Eq & C)); [lia|].
  exists a, a0. do 2 (split; [auto|]). split; [|split].
  - intros idx Hv. destruct (A idx Hv) as (x & Ex & Hx). rewrite rlift_control_point in Ex. unlift Ex. eauto.
  - exists i. split; [auto|]. rewrite rlift_control_point in Ep. unlift Ep. rewrite !coord_emb in B. congruence.
  - exists j. split; [auto|]. rewrite rlift_control_point in Eq. unlift Eq. rewrite !coord_emb in C. congruence.
Qed.

Lemma in_unit_rlift {T} {o : SOps T} {F : SField T} (r : rspline T T) : in_unit_cube (rlift r) <-> in_unit_interval r.
Proof.
  unfold in_unit_cube, in_unit_interval. split; intros H idx Hv.
  - destruct (H idx Hv) as (p & E & Hp). rewrite rlift_control_point in E. unlift E. exists a. split; auto.
    rewrite plist_emb in Hp. now inversion Hp.
  - destruct (H idx Hv) as (p & E & Hp). exists (emb p). rewrite rlift_control_point, E. split; [reflexivity|].
    rewrite plist_emb. repeat constructor; auto; apply Hp.
Qed.

Lemma c63_fits_exact : forall (T : Type) (o : SOps T) (F : SField T) (O : SOrder T) (r : rspline T T), rwf r ->
  Forall (fun w => w <> s0) (control_points (weight_function r)) ->
  exists b, R_FitsIntoUnitCube_s r = Ok b /\ (b = true <-> in_unit_interval r).
Proof.
  intros T o F O r Hw HW.
  destruct (c44_fits_exact T o F O 1 (rlift r) (rwf_rlift r Hw) HW) as (b & E & H).
  rewrite rlift_fits in E. exists b. split; [auto|]. rewrite H. apply in_unit_rlift.
Qed.

Lemma c63_empty : forall (T : Type) (o : SOps T) (r : rspline T T),
  number_of_control_points (weighted_spline r) = 0 ->
  R_MinimumCorner_s r = Throw /\ R_MaximumCorner_s r = Throw /\ R_FitsIntoUnitCube_s r = Throw.
Proof.
  intros T o r H. unfold R_FitsIntoUnitCube_s, R_MinimumCorner_s, R_MaximumCorner_s, R_Corner_s. rewrite H. auto.
Qed.

(** ** C64 *)
Lemma unit_lift {T} {o : SOps T} {F : SField T} (s : spline T) : Forall in_unit (control_points s) ->
  forall p k, In p (control_points (lift s)) -> k < 1 -> in_unit (coord 1 p k).
Proof.
  intros H p k Hp Hk. cbn in Hp. apply in_map_iff in Hp. destruct Hp as (p' & <- & Hp).
  replace k with 0 by lia. rewrite Forall_forall in H. apply H; auto.
Qed.

Lemma c64_compose : forall (T V : Type) (o : SOps T) (ov : VOps T V) (F : SField T) (M : VMod T V) (O : SOrder T)
  (MAXB : nat) (outer : spline V) (inner : spline T),
  MAXB <= 68 -> wf outer -> length (degrees outer) = 1 -> wf inner ->
  Forall in_unit (control_points inner) ->
  Forall (fun p => list_sum (degrees outer) * p < MAXB) (degrees inner) ->
  Forall (fun p => p < MAXB) (degrees outer) ->
  exists r, Compose_s MAXB outer inner = Ok r /\ wf r /\
    degrees r = map (fun p => list_sum (degrees outer) * p) (degrees inner) /\
    forall xs : list T, length xs = length (degrees inner) ->
      exists x v, Evaluate inner xs = Ok x /\ Evaluate outer [x] = Ok v /\ Evaluate r xs = Ok v.
Proof.
  intros T V o ov F M O MAXB [degs n off c] inner HB Ho H1 Hi HC HF HM. cbn [degrees] in *.
  destruct degs as [|p0 [|p1 degs]]; try discriminate H1.
  destruct (c28_compose T V o ov F M O MAXB (mkSpline [p0] n off c) (lift inner) HB Ho (wf_lift _ Hi)
    (unit_lift _ HC) HF HM) as (r & E & Hr & Dr & HV).
  cbn [degrees length] in *. rewrite (lift_compose MAXB _ _ Hi) in E.
  exists r. do 3 (split; [auto|]). intros xs HX. destruct (HV xs HX) as (q & v & E1 & E2 & E3).
  rewrite lift_evaluate in E1 by auto. unlift E1. rewrite plist_emb in E2. eauto.
Qed.

Lemma c64_outside : forall (T V : Type) (o : SOps T) (ov : VOps T V) (F : SField T) (M : VMod T V)
  (O : SOrder T) (MAXB fuel : nat) (po : spline V) (ro : rspline T V) (pinner : spline T) (rinner : rspline T T),
  (wf pinner -> ~ Forall in_unit (control_points pinner) ->
     Compose_s MAXB po pinner = Throw /\ ComposeSensitivity_s MAXB po pinner = Throw /\
     Compose_RP_s MAXB ro pinner = Throw /\ ComposeSensitivity_RP_s MAXB ro pinner = Throw) /\
  (rwf rinner -> Forall (fun w => w <> s0) (control_points (weight_function rinner)) -> ~ in_unit_interval rinner ->
     Compose_PR_s MAXB fuel po rinner = Throw /\ ComposeSensitivity_PR_s MAXB fuel po rinner = Throw).
Proof.
  intros T V o ov F M O MAXB fuel po ro pinner rinner. split.
  - intros Hi HN. destruct (c62_fits_exact T o F O pinner Hi) as ([|] & E & H).
    + exfalso. apply HN. apply H. auto.
    + unfold Compose_RP_s, ComposeSensitivity_RP_s, Compose_s, ComposeSensitivity_s. rewrite E. cbn. auto.
  - intros Hi HW HN. destruct (c63_fits_exact T o F O rinner Hi HW) as ([|] & E & H).
    + exfalso. apply HN. apply H. auto.
    + unfold Compose_PR_s, ComposeSensitivity_PR_s. rewrite E. cbn. auto.
Qed.

Lemma c64_sensitivity : forall (T V : Type) (o : SOps T) (ov : VOps T V) (F : SField T) (M : VMod T V)
  (O : SOrder T) (MAXB : nat) (outer : spline V) (inner : spline T),
  MAXB <= 68 -> wf outer -> length (degrees outer) = 1 -> wf inner ->
  Forall in_unit (control_points inner) ->
  Forall (fun p => list_sum (degrees outer) * p < MAXB) (degrees inner) ->
  Forall (fun p => p < MAXB) (degrees outer) ->
  exists ts r, ComposeSensitivity_s MAXB outer inner = Ok ts /\ length ts = length (control_points outer) /\
    Compose_s MAXB outer inner = Ok r /\
    (forall i P (delta : V), nth_error (control_points outer) i = Some P ->
       exists t r', nth_error ts i = Some t /\ wf t /\
         Compose_s MAXB (with_cps outer (upd_list (control_points outer) i (vadd P delta))) inner = Ok r' /\
         forall xs : list T, length xs = length (degrees inner) ->
           exists a c, Evaluate r xs = Ok a /\ Evaluate t xs = Ok c /\
             Evaluate r' xs = Ok (vadd a (vscale c delta))) /\
    (forall xs : list T, length xs = length (degrees inner) ->
       exists cs : list T, mapM (fun t => Evaluate t xs) ts = Ok cs /\
         Evaluate r xs = Ok (vsum (length ts) (fun i => vscale (nth i cs s0) (nth i (control_points outer) v0)))).
Proof.
  intros T V o ov F M O MAXB [degs n off c] inner HB Ho H1 Hi HC HF HM. cbn [degrees] in *.
  destruct degs as [|p0 [|p1 degs]]; try discriminate H1.
  destruct (c29_sensitivity T V o ov F M O MAXB (mkSpline [p0] n off c) (lift inner) HB Ho (wf_lift _ Hi)
    (unit_lift _ HC) HF HM) as (ts & r & E1 & E2 & E3 & E4 & E5).
  cbn [degrees length] in *. rewrite (lift_compose MAXB _ _ Hi) in E3. rewrite (lift_sensitivity MAXB _ _ Hi) in E1.
  exists ts, r. do 3 (split; [auto|]). split; [|exact E5].
  intros i P delta HP. destruct (E4 i P delta HP) as (t & r' & A & B & C & D).
  rewrite (lift_compose MAXB _ _ Hi) in C. exists t, r'. auto.
Qed.

Lemma c64_polynomial_of_rational : forall (T V : Type) (o : SOps T) (ov : VOps T V) (F : SField T) (M : VMod T V)
  (O : SOrder T) (MAXB fuel : nat) (outer : spline V) (inner : rspline T T),
  MAXB <= 68 -> wf outer -> length (degrees outer) = 1 -> rwf inner -> in_unit_interval inner ->
  Forall (fun p => list_sum (degrees outer) * p < MAXB) (rdegrees inner) ->
  Forall (fun p => p < MAXB) (degrees outer) ->
  (Z.of_nat (n_coeffs (rdegrees inner)) < 2 ^ 31)%Z -> list_max (rdegrees inner) + 1 < fuel ->
  exists r, Compose_PR_s MAXB fuel outer inner = Ok r /\ rwf r /\
    rdegrees r = map (fun p => list_sum (degrees outer) * p) (rdegrees inner) /\
    forall xs : list T, rdomain inner xs ->
      exists x v, R_Evaluate inner xs = Ok x /\ Evaluate outer [x] = Ok v /\ R_Evaluate r xs = Ok v.
Proof.
  intros T V o ov F M O MAXB fuel [degs n off c] inner HB Ho H1 Hi HC HF HM Hsz Hf. cbn [degrees] in *.
  destruct degs as [|p0 [|p1 degs]]; try discriminate H1.
  destruct (c30_polynomial_of_rational T V o ov F M O MAXB fuel (mkSpline [p0] n off c) (rlift inner) HB Ho
    (rwf_rlift _ Hi) (proj2 (in_unit_rlift inner) HC) HF HM Hsz Hf) as (r & E & Hr & Dr & HV).
  cbn [degrees length] in *. rewrite (lift_PR MAXB fuel _ _ Hi) in E.
  exists r. do 3 (split; [auto|]). intros xs HX. destruct (HV xs HX) as (q & v & E1 & E2 & E3).
  rewrite rlift_evaluate in E1 by (auto; apply HX). unlift E1. rewrite plist_emb in E2. eauto.
Qed.

Lemma c64_rational_of_polynomial : forall (T V : Type) (o : SOps T) (ov : VOps T V) (F : SField T) (M : VMod T V)
  (O : SOrder T) (MAXB : nat) (outer : rspline T V) (inner : spline T),
  MAXB <= 68 -> rwf outer -> length (rdegrees outer) = 1 -> wf inner ->
  Forall in_unit (control_points inner) ->
  Forall (fun p => list_sum (rdegrees outer) * p < MAXB) (degrees inner) ->
  Forall (fun p => p < MAXB) (rdegrees outer) ->
  exists r, Compose_RP_s MAXB outer inner = Ok r /\ rwf r /\
    rdegrees r = map (fun p => list_sum (rdegrees outer) * p) (degrees inner) /\
    forall xs : list T, length xs = length (degrees inner) ->
      exists x, Evaluate inner xs = Ok x /\ R_Evaluate r xs = R_Evaluate outer [x] /\
        (rdomain outer [x] -> is_ok (R_Evaluate r xs)).
Proof.
  intros T V o ov F M O MAXB [[degs n off c] w] inner HB Ho H1 Hi HC HF HM.
  unfold rdegrees in HF, HM, H1. cbn [weighted_spline degrees] in HF, HM, H1.
  destruct degs as [|p0 [|p1 degs]]; try discriminate H1.
  destruct (c30_rational_of_polynomial T V o ov F M O MAXB (mkR (mkSpline [p0] n off c) w) (lift inner) HB Ho
    (wf_lift _ Hi) (unit_lift _ HC) HF HM) as (r & E & Hr & Dr & HV).
  unfold rdegrees in Dr, HV. cbn [weighted_spline degrees length] in Dr, HV, E. rewrite (lift_RP MAXB _ _ Hi) in E.
  exists r. do 3 (split; [auto|]). intros xs HX. destruct (HV xs HX) as (q & E1 & E2 & E3).
  rewrite lift_evaluate in E1 by auto. unlift E1. rewrite plist_emb in E2, E3. eauto.
Qed.

Lemma c64_rational_of_rational : forall (T V : Type) (o : SOps T) (ov : VOps T V) (F : SField T) (M : VMod T V)
  (MAXB fuel : nat) (outer : rspline T V) (inner : rspline T T),
  MAXB <= 68 -> rwf outer -> length (rdegrees outer) = 1 -> rwf inner ->
  Forall (fun p => list_sum (rdegrees outer) * p < MAXB) (rdegrees inner) ->
  Forall (fun p => p < MAXB) (rdegrees outer) ->
  (Z.of_nat (n_coeffs (rdegrees inner)) < 2 ^ 31)%Z -> list_max (rdegrees inner) + 1 < fuel ->
  exists r, Compose_RR_s MAXB fuel outer inner = Ok r /\ rwf r /\
    rdegrees r = map (fun p => list_sum (rdegrees outer) * p) (rdegrees inner) /\
    forall xs : list T, rdomain inner xs ->
      exists x, R_Evaluate inner xs = Ok x /\ R_Evaluate r xs = R_Evaluate outer [x] /\
        (rdomain outer [x] -> is_ok (R_Evaluate r xs)).
Proof.
  intros T V o ov F M MAXB fuel [[degs n off c] w] inner HB Ho H1 Hi HF HM Hsz Hf.
  unfold rdegrees in HF, HM, H1. cbn [weighted_spline degrees] in HF, HM, H1.
  destruct degs as [|p0 [|p1 degs]]; try discriminate H1.
  destruct (c30_rational_of_rational T V o ov F M MAXB fuel (mkR (mkSpline [p0] n off c) w) (rlift inner) HB Ho
    (rwf_rlift _ Hi) HF HM Hsz Hf) as (r & E & Hr & Dr & HV).
  unfold rdegrees in Dr. cbn [weighted_spline degrees length] in Dr, HV, E. rewrite (lift_RR MAXB fuel _ _ Hi) in E.
  exists r. do 3 (split; [auto|]). intros xs HX. destruct (HV xs HX) as (q & E1 & E2 & E3).
  rewrite rlift_evaluate in E1 by (auto; apply HX). unlift E1. unfold rdegrees in E2, E3.
  cbn [weighted_spline degrees length] in E2, E3. rewrite plist_emb in E2, E3. eauto.
Qed.

Lemma c64_sensitivity_polynomial_of_rational : forall (T V : Type) (o : SOps T) (ov : VOps T V) (F : SField T)
  (M : VMod T V) (O : SOrder T) (MAXB fuel : nat) (outer : spline V) (inner : rspline T T),
  MAXB <= 68 -> wf outer -> length (degrees outer) = 1 -> rwf inner -> in_unit_interval inner ->
  Forall (fun p => list_sum (degrees outer) * p < MAXB) (rdegrees inner) ->
  Forall (fun p => p < MAXB) (degrees outer) ->
  (Z.of_nat (n_coeffs (rdegrees inner)) < 2 ^ 31)%Z -> list_max (rdegrees inner) + 1 < fuel ->
  exists ts r, ComposeSensitivity_PR_s MAXB fuel outer inner = Ok ts /\ length ts = length (control_points outer) /\
    Compose_PR_s MAXB fuel outer inner = Ok r /\
    (forall i P (delta : V), nth_error (control_points outer) i = Some P ->
       exists t r', nth_error ts i = Some t /\ rwf t /\
         Compose_PR_s MAXB fuel (with_cps outer (upd_list (control_points outer) i (vadd P delta))) inner = Ok r' /\
         forall xs : list T, rdomain inner xs ->
           exists a c, R_Evaluate r xs = Ok a /\ R_Evaluate t xs = Ok c /\
             R_Evaluate r' xs = Ok (vadd a (vscale c delta))) /\
    (forall xs : list T, rdomain inner xs ->
       exists cs : list T, mapM (fun t => R_Evaluate t xs) ts = Ok cs /\
         R_Evaluate r xs = Ok (vsum (length ts) (fun i => vscale (nth i cs s0) (nth i (control_points outer) v0)))).
Proof.
  intros T V o ov F M O MAXB fuel [degs n off c] inner HB Ho H1 Hi HC HF HM Hsz Hf. cbn [degrees] in *.
  destruct degs as [|p0 [|p1 degs]]; try discriminate H1.
  destruct (c61_sensitivity_polynomial_of_rational T V o ov F M O MAXB fuel (mkSpline [p0] n off c) (rlift inner) HB Ho
    (rwf_rlift _ Hi) (proj2 (in_unit_rlift inner) HC) HF HM Hsz Hf) as (ts & r & E1 & E2 & E3 & E4 & E5).
  cbn [degrees length] in *. rewrite (lift_PR MAXB fuel _ _ Hi) in E3. rewrite (lift_sens_PR MAXB fuel _ _ Hi) in E1.
  exists ts, r. do 3 (split; [auto|]). split; [|exact E5].
  intros i P delta HP. destruct (E4 i P delta HP) as (t & r' & A & B & C & D).
  rewrite (lift_PR MAXB fuel _ _ Hi) in C. exists t, r'. auto.
Qed.

Lemma c64_sensitivity_rational_of_polynomial : forall (T V : Type) (o : SOps T) (ov : VOps T V) (F : SField T)
  (M : VMod T V) (O : SOrder T) (MAXB : nat) (outer : rspline T V) (inner : spline T),
  MAXB <= 68 -> rwf outer -> length (rdegrees outer) = 1 -> wf inner ->
  Forall in_unit (control_points inner) ->
  Forall (fun p => list_sum (rdegrees outer) * p < MAXB) (degrees inner) ->
  Forall (fun p => p < MAXB) (rdegrees outer) ->
  exists ts r, ComposeSensitivity_RP_s MAXB outer inner = Ok ts /\ length ts = n_coeffs (rdegrees outer) /\
    Compose_RP_s MAXB outer inner = Ok r /\
    (forall i X w (delta : V), nth_error (control_points (weighted_spline outer)) i = Some X ->
       nth_error (control_points (weight_function outer)) i = Some w ->
       exists t r', nth_error ts i = Some t /\ rwf t /\
         Compose_RP_s MAXB (mkR (with_cps (weighted_spline outer) (upd_list (control_points (weighted_spline outer)) i
           (vadd X (vscale w delta)))) (weight_function outer)) inner = Ok r' /\
         forall xs : list T, length xs = length (degrees inner) -> rdomain r xs ->
           exists a c, R_Evaluate r xs = Ok a /\ R_Evaluate t xs = Ok c /\
             R_Evaluate r' xs = Ok (vadd a (vscale c delta))) /\
    (forall (pts : list V) (xs : list T), length xs = length (degrees inner) -> rdomain r xs ->
       (forall i, i < n_coeffs (rdegrees outer) -> nth i (control_points (weighted_spline outer)) v0 =
          vscale (nth i (control_points (weight_function outer)) s0) (nth i pts v0)) ->
       exists cs : list T, mapM (fun t => R_Evaluate t xs) ts = Ok cs /\
         R_Evaluate r xs = Ok (vsum (length ts) (fun i => vscale (nth i cs s0) (nth i pts v0)))).
Proof.
  intros T V o ov F M O MAXB [[degs n off c] w] inner HB Ho H1 Hi HC HF HM.
  unfold rdegrees in HF, HM, H1. cbn [weighted_spline degrees] in HF, HM, H1.
  destruct degs as [|p0 [|p1 degs]]; try discriminate H1.
  destruct (c61_sensitivity_rational_of_polynomial T V o ov F M O MAXB (mkR (mkSpline [p0] n off c) w) (lift inner) HB Ho
    (wf_lift _ Hi) (unit_lift _ HC) HF HM) as (ts & r & E1 & E2 & E3 & E4 & E5).
  change (length (rdegrees (mkR (mkSpline [p0] n off c) w))) with 1 in *.
  rewrite (lift_RP MAXB _ _ Hi) in E3. rewrite (lift_sens_RP MAXB _ _ Hi) in E1.
  exists ts, r. do 3 (split; [auto|]). split; [|exact E5].
  intros i X x delta HX Hx. destruct (E4 i X x delta HX Hx) as (t & r' & A & B & C & D).
  change (length (rdegrees (mkR (mkSpline [p0] n off c) w))) with 1 in *.
  rewrite (lift_RP MAXB _ _ Hi) in C. exists t, r'. auto.
Qed.

Lemma c64_sensitivity_rational_of_rational : forall (T V : Type) (o : SOps T) (ov : VOps T V) (F : SField T)
  (M : VMod T V) (MAXB fuel : nat) (outer : rspline T V) (inner : rspline T T),
  MAXB <= 68 -> rwf outer -> length (rdegrees outer) = 1 -> rwf inner ->
  Forall (fun p => list_sum (rdegrees outer) * p < MAXB) (rdegrees inner) ->
  Forall (fun p => p < MAXB) (rdegrees outer) ->
  (Z.of_nat (n_coeffs (rdegrees inner)) < 2 ^ 31)%Z -> list_max (rdegrees inner) + 1 < fuel ->
  exists ts r, ComposeSensitivity_RR_s MAXB fuel outer inner = Ok ts /\ length ts = n_coeffs (rdegrees outer) /\
    Compose_RR_s MAXB fuel outer inner = Ok r /\
    (forall i X w (delta : V), nth_error (control_points (weighted_spline outer)) i = Some X ->
       nth_error (control_points (weight_function outer)) i = Some w ->
       exists t r', nth_error ts i = Some t /\ rwf t /\
         Compose_RR_s MAXB fuel (mkR (with_cps (weighted_spline outer) (upd_list (control_points (weighted_spline outer)) i
           (vadd X (vscale w delta)))) (weight_function outer)) inner = Ok r' /\
         forall xs : list T, rdomain inner xs -> rdomain r xs ->
           exists a c, R_Evaluate r xs = Ok a /\ R_Evaluate t xs = Ok c /\
             R_Evaluate r' xs = Ok (vadd a (vscale c delta))) /\
    (forall (pts : list V) (xs : list T), rdomain inner xs -> rdomain r xs ->
       (forall i, i < n_coeffs (rdegrees outer) -> nth i (control_points (weighted_spline outer)) v0 =
          vscale (nth i (control_points (weight_function outer)) s0) (nth i pts v0)) ->
       exists cs : list T, mapM (fun t => R_Evaluate t xs) ts = Ok cs /\
         R_Evaluate r xs = Ok (vsum (length ts) (fun i => vscale (nth i cs s0) (nth i pts v0)))).
Proof.
  intros T V o ov F M MAXB fuel [[degs n off c] w] inner HB Ho H1 Hi HF HM Hsz Hf.
  unfold rdegrees in HF, HM, H1. cbn [weighted_spline degrees] in HF, HM, H1.
  destruct degs as [|p0 [|p1 degs]]; try discriminate H1.
  destruct (c61_sensitivity_rational_of_rational T V o ov F M MAXB fuel (mkR (mkSpline [p0] n off c) w) (rlift inner) HB Ho
    (rwf_rlift _ Hi) HF HM Hsz Hf) as (ts & r & E1 & E2 & E3 & E4 & E5).
  change (length (rdegrees (mkR (mkSpline [p0] n off c) w))) with 1 in *.
  rewrite (lift_RR MAXB fuel _ _ Hi) in E3. rewrite (lift_sens_RR MAXB fuel _ _ Hi) in E1.
  exists ts, r. do 3 (split; [auto|]). split; [|exact E5].
  intros i X x delta HX Hx. destruct (E4 i X x delta HX Hx) as (t & r' & A & B & C & D).
  change (length (rdegrees (mkR (mkSpline [p0] n off c) w))) with 1 in *.
  rewrite (lift_RR MAXB fuel _ _ Hi) in C. exists t, r'. auto.
Qed.
