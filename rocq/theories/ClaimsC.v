(** Claims about coordinates, bounding corners and the unit cube. *)
From Coq Require Import Arith Lia List ZArith NArith Bool Ring Field QArith Qcanon.
From Verif Require Import Prelude Scalar Spec SpecSpline Sums Order Coord ModelBasis ModelSpline ModelPoint
  Examples ProofIndex ProofBasis ProofEval ProofElevate ProofUnique ClaimsA ProofArith ClaimsB ProofCube.
Import ListNotations.
Local Open Scope nat_scope.

Lemma nth_in {A} (l : list A) p d : In p l -> exists i, i < length l /\ nth i l d = p.
Proof. intros H. destruct (In_nth l p d H) as (i & Hi & E). eauto. Qed.

Lemma c12_bounding_box : forall (T : Type) (o : SOps T) (F : SField T) (O : SOrder T) (d : nat)
  (s : spline (point T d)) (xs : list T),
  wf s -> length xs = length (degrees s) -> Forall in_unit xs ->
  exists p lo hi, Evaluate s xs = Ok p /\ MinimumCorner s = Ok lo /\ MaximumCorner s = Ok hi /\
    forall k, k < d -> sle (coord d lo k) (coord d p k) /\ sle (coord d p k) (coord d hi k).
Proof.
  intros T o F O d s xs Hw HX HU.
  destruct (corner_max s Hw) as (hi & Ehi & Hhi). destruct (corner_min s Hw) as (lo & Elo & Hlo).
  exists (value_at s xs), lo, hi. rewrite Evaluate_value by auto. do 3 (split; [auto|]).
  intros k Hk. unfold value_at. rewrite coord_bezier. apply bezier_bounds; auto.
  intros i Hi. destruct Hw as (_ & _ & _ & Hc). rewrite <- Hc in Hi.
  split; [apply Hlo|apply Hhi]; auto.
Qed.

Lemma c24_extract_dimension : forall (T : Type) (o : SOps T) (F : SField T) (d : nat)
  (s : spline (point T d)) (k : nat), wf s -> k < d ->
  exists r, ExtractDimension s k = Ok r /\ wf r /\ degrees r = degrees s /\
    forall xs : list T, length xs = length (degrees s) ->
      exists p, Evaluate s xs = Ok p /\ Evaluate r xs = Ok (coord d p k).
Proof.
  intros T o F d s k Hw Hk. destruct (ExtractDimension_ok s k Hw Hk) as (r & E & Hr & Hd & Hc).
  exists r. do 3 (split; [auto|]). intros xs HX. exists (value_at s xs).
  rewrite !Evaluate_value by (auto; congruence). split; auto. f_equal. unfold value_at.
  rewrite coord_bezier, Hd. apply bezier_ext. intros i Hi. rewrite Hc.
  destruct Hw as (_ & _ & _ & HL).
  rewrite (nth_indep _ v0 (coord d v0 k)) by (rewrite map_length; lia).
  apply (map_nth (fun p => coord d p k)).
Qed.

Lemma c24_extract_dimension_range : forall (T : Type) (o : SOps T) (d : nat)
  (s : spline (point T d)) (k : nat), d <= k -> ExtractDimension s k = Throw.
Proof. intros. unfold ExtractDimension. rewrite (proj2 (Nat.leb_le d k)); auto. Qed.

Lemma c25_corners : forall (T : Type) (o : SOps T) (F : SField T) (O : SOrder T) (d : nat)
  (s : spline (point T d)), wf s ->
  exists lo hi, MinimumCorner s = Ok lo /\ MaximumCorner s = Ok hi /\
    forall k, k < d ->
      (forall p, In p (control_points s) ->
         sle (coord d lo k) (coord d p k) /\ sle (coord d p k) (coord d hi k)) /\
      (exists p, In p (control_points s) /\ coord d p k = coord d lo k) /\
      (exists p, In p (control_points s) /\ coord d p k = coord d hi k).
Proof.
  intros T o F O d s Hw.
  destruct (corner_max s Hw) as (hi & Ehi & Hhi). destruct (corner_min s Hw) as (lo & Elo & Hlo).
  exists lo, hi. do 2 (split; [auto|]). intros k Hk.
  destruct (Hhi k Hk) as (B1 & (i & Hi & E1)). destruct (Hlo k Hk) as (B2 & (j & Hj & E2)).
  split; [|split].
  - intros p Hp. destruct (nth_in _ _ v0 Hp) as (m & Hm & <-). split; [apply B2|apply B1]; auto.
  - exists (nth j (control_points s) v0). split; [apply nth_In; auto|exact E2].
  - exists (nth i (control_points s) v0). split; [apply nth_In; auto|exact E1].
Qed.

Lemma c25_fits_exact : forall (T : Type) (o : SOps T) (F : SField T) (O : SOrder T) (d : nat)
  (s : spline (point T d)), wf s ->
  exists b, FitsIntoUnitCube s = Ok b /\
    (b = true <-> forall p k, In p (control_points s) -> k < d -> in_unit (coord d p k)).
Proof.
  intros T o F O d s Hw. destruct (FitsIntoUnitCube_ok s Hw) as (b & E & H).
  exists b. split; auto. rewrite H. split.
  - intros A p k Hp Hk. destruct (nth_in _ _ v0 Hp) as (m & Hm & <-). apply A; auto.
  - intros A i k Hi Hk. apply A; auto. apply nth_In; auto.
Qed.

Lemma c25_empty : forall (T : Type) (o : SOps T) (d : nat) (s : spline (point T d)),
  number_of_control_points s = 0 ->
  MinimumCorner s = Throw /\ MaximumCorner s = Throw /\ FitsIntoUnitCube s = Throw /\ FitIntoUnitCube s = Throw.
Proof.
  intros T o d s H. unfold FitsIntoUnitCube, FitIntoUnitCube, MinimumCorner, MaximumCorner, Corner.
  rewrite H. auto.
Qed.

Section Fit.
Context {T : Type} {o : SOps T} {F : SField T} {O : SOrder T}.
Add Field Tfield : (@sf_th T o F).
Lemma affine_unit (lo hi x : T) : slt lo hi -> sle lo x -> sle x hi ->
  in_unit (sdiv (ssub x lo) (ssub hi lo)).
Proof.
  intros H A B. pose proof (proj1 (slt_sub lo hi) H) as HP.
  split; [apply sle_div; auto; apply (proj1 (sle_sub lo x)); auto|].
  apply sle_div_iff'; auto. replace (smul (ssub hi lo) s1) with (ssub hi lo) by ring.
  apply (proj2 (sle_sub _ _)). replace (ssub (ssub hi lo) (ssub x lo)) with (ssub hi x) by ring.
  apply (proj1 (sle_sub x hi)); auto.
Qed.
Lemma affine_lo (lo hi : T) : slt lo hi -> sdiv (ssub lo lo) (ssub hi lo) = s0.
Proof.
  intros H. field. intros E. apply slt_sub in H. rewrite E in H. apply (so_irrefl _ H).
Qed.
Lemma affine_hi (lo hi : T) : slt lo hi -> sdiv (ssub hi lo) (ssub hi lo) = s1.
Proof.
  intros H. field. intros E. apply slt_sub in H. rewrite E in H. apply (so_irrefl _ H).
Qed.
End Fit.

Lemma c26_fit : forall (T : Type) (o : SOps T) (F : SField T) (O : SOrder T) (d : nat)
  (s : spline (point T d)), wf s ->
  (forall k, k < d -> exists p q, In p (control_points s) /\ In q (control_points s) /\ coord d p k <> coord d q k) ->
  exists r lo hi, FitIntoUnitCube s = Ok r /\ wf r /\ degrees r = degrees s /\
    FitsIntoUnitCube r = Ok true /\
    forall k, k < d ->
      slt (coord d lo k) (coord d hi k) /\
      (forall i, i < length (control_points s) ->
         coord d (nth i (control_points r) v0) k =
           sdiv (ssub (coord d (nth i (control_points s) v0) k) (coord d lo k))
                (ssub (coord d hi k) (coord d lo k)) /\
         in_unit (coord d (nth i (control_points r) v0) k)) /\
      (exists p, In p (control_points r) /\ coord d p k = s0) /\
      (exists p, In p (control_points r) /\ coord d p k = s1).
Proof.
  intros T o F O d s Hw Hne.
  destruct (FitIntoUnitCube_ok s Hw) as (r & lo & hi & E & Hr & Hd & El & Eh & HL & H).
  { intros k Hk. destruct (Hne k Hk) as (p & q & Hp & Hq & N).
    destruct (nth_in _ _ v0 Hp) as (i & Hi & Ei). destruct (nth_in _ _ v0 Hq) as (j & Hj & Ej).
    exists i, j. unfold cpc. rewrite Ei, Ej. auto. }
  assert (HU : forall i k, i < length (control_points s) -> k < d -> in_unit (cpc r i k)).
  { intros i k Hi Hk. destruct (H k Hk) as (L & HC). rewrite HC by auto.
    destruct (corner_max s Hw) as (hi' & Ehi & Hhi). destruct (corner_min s Hw) as (lo' & Elo & Hlo).
    assert (hi' = hi) by congruence. assert (lo' = lo) by congruence. subst.
    apply affine_unit; auto; [apply Hlo|apply Hhi]; auto. }
  exists r, lo, hi. do 3 (split; [auto|]). split.
  - destruct (FitsIntoUnitCube_ok r Hr) as (b & Eb & Hb). rewrite Eb. f_equal. apply Hb.
    intros i k Hi Hk. apply HU; auto. lia.
  - intros k Hk. destruct (H k Hk) as (L & HC). split; [auto|].
    split; [intros i Hi; split; [apply HC; auto|apply HU; auto]|].
    destruct (corner_max s Hw) as (hi' & Ehi & Hhi). destruct (corner_min s Hw) as (lo' & Elo & Hlo).
    assert (hi' = hi) by congruence. assert (lo' = lo) by congruence. subst.
    destruct (Hhi k Hk) as (_ & (i & Hi & E1)). destruct (Hlo k Hk) as (_ & (j & Hj & E2)).
    split.
    + exists (nth j (control_points r) v0). split; [apply nth_In; lia|].
      change (cpc r j k = s0). rewrite HC, E2 by auto. apply affine_lo; auto.
    + exists (nth i (control_points r) v0). split; [apply nth_In; lia|].
      change (cpc r i k = s1). rewrite HC, E1 by auto. apply affine_hi; auto.
Qed.

Lemma c27_flat_refuted : exists s : spline (point Qc 2), wf s /\ FitIntoUnitCube s = NonFinite.
Proof.
  exists (mkSpline [1] 2 [1] [(Q2Qc 0, (Q2Qc 1, tt)); (Q2Qc 3, (Q2Qc 1, tt))]).
  split; [case_|]. vm_compute. reflexivity.
Qed.

(** Every flat spline divides by zero. *)
Lemma c27_flat_always : forall (T : Type) (o : SOps T) (F : SField T) (O : SOrder T) (d : nat)
  (s : spline (point T d)) (k : nat), wf s -> k < d ->
  (forall p q, In p (control_points s) -> In q (control_points s) -> coord d p k = coord d q k) ->
  FitIntoUnitCube s = NonFinite.
Proof.
  intros T o F O d s k Hw Hk H. apply (FitIntoUnitCube_flat s k); auto.
  intros i j Hi Hj. apply H; apply nth_In; auto.
Qed.
