(** Splines are determined by their degrees and values: laws between operations. *)
From Coq Require Import Arith Lia List ZArith NArith Bool Ring Field.
From Verif Require Import Prelude Scalar Spec SpecSpline Sums Order Coord ModelBasis ModelSpline ModelPoint
  ProofIndex ProofBasis ProofEval ProofElevate ProofUnique ClaimsA ProofArith ClaimsB ProofCube ClaimsC
  ProofMul ProofSplit ClaimsD ProofCompose ClaimsE.
Import ListNotations.
Local Open Scope nat_scope.

Section Laws.
Context {T : Type} {o : SOps T} {F : SField T}.
Add Field Tfield : (@sf_th T o F).

(** [s] has the degrees [D] and describes the function [f]. *)
Definition isv {V} {ov : VOps T V} (s : spline V) (D : list nat) (f : list T -> V) : Prop :=
  wf s /\ degrees s = D /\ forall xs, length xs = length D -> value_at s xs = f xs.

Section V.
Context {V : Type} {ov : VOps T V} {M : VMod T V}.

Lemma isv_self (s : spline V) : wf s -> isv s (degrees s) (value_at s).
Proof. repeat split; auto; apply H. Qed.

Lemma isv_unique (s s' : spline V) D f g :
  isv s D f -> isv s' D g -> (forall xs, length xs = length D -> f xs = g xs) -> s = s'.
Proof.
  intros (H & E & HV) (H' & E' & HV') HE. apply spline_unique; auto; [congruence|].
  intros xs HX. rewrite HV, HV' by congruence. apply HE. congruence.
Qed.

Lemma isv_ext (s : spline V) D E f g : isv s D f -> D = E -> (forall xs, length xs = length D -> f xs = g xs) -> isv s E g.
Proof. intros (H & E' & HV) <- HE. repeat split; auto; try apply H. intros xs HX. rewrite HV by auto. auto. Qed.

Lemma add_isv (a b : spline V) D E f g :
  isv a D f -> isv b E g -> length D = length E -> (Z.of_nat (n_coeffs (map2 Nat.max D E)) < 2 ^ 31)%Z ->
  exists r, returns (fun fuel => spline_add fuel a b) r /\ isv r (map2 Nat.max D E) (fun xs => vadd (f xs) (g xs)).
Proof.
  intros (Ha & <- & HVa) (Hb & <- & HVb) HL HS.
  destruct (c17_add T V o ov F M a b Ha Hb HL HS) as (r & E & Hr & Hd & HV). exists r. split; auto. split; auto. split; auto.
  assert (L : length (map2 Nat.max (degrees a) (degrees b)) = length (degrees a)) by (apply length_map2; auto).
  intros xs HX. rewrite L in HX. destruct (HV xs HX) as (x & y & E1 & E2 & E3).
  rewrite Evaluate_value in E1, E2, E3 by (auto; congruence). injection E1 as <-. injection E2 as <-. injection E3 as ->.
  rewrite HVa, HVb by congruence. reflexivity.
Qed.

Lemma neg_isv (a : spline V) D f : isv a D f -> exists r, spline_neg (T := T) a = Ok r /\ isv r D (fun xs => vopp (f xs)).
Proof.
  intros (Ha & <- & HVa). destruct (c21_pointwise T V o ov F M a s0 v0 Ha) as (_ & _ & _ & _ & _ & _ & (r & E & Hr & Hd & HV) & _).
  exists r. split; auto. split; auto. split; auto. intros xs HX. destruct (HV xs HX) as (x & E1 & E2).
  rewrite Evaluate_value in E1, E2 by (auto; congruence). injection E1 as <-. injection E2 as ->. rewrite HVa by auto. reflexivity.
Qed.

Lemma scale_isv c (a : spline V) D f : isv a D f -> exists r, spline_scale a c = Ok r /\ isv r D (fun xs => vscale c (f xs)).
Proof.
  intros (Ha & <- & HVa). destruct (c21_pointwise T V o ov F M a c v0 Ha) as (_ & (r & E & Hr & Hd & HV) & _).
  exists r. split; auto. split; auto. split; auto. intros xs HX. destruct (HV xs HX) as (x & E1 & E2).
  rewrite Evaluate_value in E1, E2 by (auto; congruence). injection E1 as <-. injection E2 as ->. rewrite HVa by auto. reflexivity.
Qed.

Lemma shift_isv p (a : spline V) D f : isv a D f -> exists r, spline_shift (T := T) a p = Ok r /\ isv r D (fun xs => vadd (f xs) p).
Proof.
  intros (Ha & <- & HVa). destruct (c21_pointwise T V o ov F M a s0 p Ha) as (_ & _ & _ & (r & E & Hr & Hd & HV) & _).
  exists r. split; auto. split; auto. split; auto. intros xs HX. destruct (HV xs HX) as (x & E1 & E2).
  rewrite Evaluate_value in E1, E2 by (auto; congruence). injection E1 as <-. injection E2 as ->. rewrite HVa by auto. reflexivity.
Qed.

Lemma elevate_isv (a : spline V) D f k : isv a D f -> k < length D ->
  (Z.of_nat (n_coeffs (upd_list D k (S (nth k D 0%nat)))) < 2 ^ 31)%Z ->
  exists r, OrderElevate a k = Ok r /\ isv r (upd_list D k (S (nth k D 0))) f.
Proof.
  intros (Ha & <- & HVa) Hk HS. destruct (OrderElevate_step a k Ha Hk HS) as (r & E & Hr & Hd & HV).
  exists r. split; auto. split; auto. split; auto. intros xs HX. rewrite length_upd in HX. rewrite (HV xs HX). auto.
Qed.

Lemma split_isv {O : SOrder T} (a : spline V) D f x k : isv a D f -> k < length D -> slt s0 x -> slt x s1 ->
  exists r r', SplitAtPosition a x k = Ok [r; r'] /\ isv r D (fun xs => f (upd_list xs k (smul x (nth k xs s0)))) /\
    isv r' D (fun xs => f (upd_list xs k (sadd x (smul (ssub s1 x) (nth k xs s0))))).
Proof.
  intros (Ha & <- & HVa) Hk H0 H1. destruct (c32_split T V o ov F M O a x k Ha Hk H0 H1) as (r & r' & E & Hr & Hr' & Hd & Hd' & HV).
  exists r, r'. split; auto. split; (split; [auto|split; [auto|]]); intros xs HX; destruct (HV xs HX) as (E1 & E2).
  - rewrite !Evaluate_value in E1 by (auto; rewrite ?length_upd; congruence). injection E1 as ->. apply HVa. now rewrite length_upd.
  - rewrite !Evaluate_value in E2 by (auto; rewrite ?length_upd; congruence). injection E2 as ->. apply HVa. now rewrite length_upd.
Qed.
End V.

Section Mul.
Context {V1 V2 V3 : Type} {o1 : VOps T V1} {o2 : VOps T V2} {o3 : VOps T V3} {M1 : VMod T V1} {M2 : VMod T V2} {M3 : VMod T V3}.
Context (pmul : V1 -> V2 -> V3) {B : Bilinear (T := T) pmul}.
Lemma mul_isv MAXB (a : spline V1) (b : spline V2) D E f g : MAXB <= 68 ->
  isv a D f -> isv b E g -> length E = length D -> Forall (fun p => p < MAXB) (map2 Nat.add D E) ->
  exists r, spline_mul MAXB pmul a b = Ok r /\ isv r (map2 Nat.add D E) (fun xs => pmul (f xs) (g xs)).
Proof.
  intros HB (Ha & <- & HVa) (Hb & <- & HVb) HL HF.
  destruct (spline_mul_ok (T := T) pmul MAXB HB a b Ha Hb HL HF) as (r & E & Hr & Hd & HV).
  exists r. split; auto. split; auto. split; auto. intros xs HX. rewrite length_map2_add in HX by auto.
  rewrite HV, HVa, HVb by congruence. reflexivity.
Qed.
End Mul.

Lemma power_isv MAXB (a : spline T) D f n : MAXB <= 68 -> isv a D f -> Forall (fun p => n * p < MAXB) D ->
  exists r, RaisePower MAXB a n = Ok r /\ isv r (map (Nat.mul n) D) (fun xs => spow (f xs) n).
Proof.
  intros HB (Ha & <- & HVa) HF. destruct (RaisePower_ok MAXB HB a n Ha HF) as (r & E & Hr & Hd & HV).
  exists r. split; auto. split; auto. split; auto. intros xs HX. rewrite map_length in HX. rewrite HV, HVa by auto. reflexivity.
Qed.

Lemma extract_isv {d} (a : spline (point T d)) D f k : isv a D f -> k < d ->
  exists r, ExtractDimension a k = Ok r /\ isv r D (fun xs => coord d (f xs) k).
Proof.
  intros (Ha & <- & HVa) Hk. destruct (ExtractDimension_ok a k Ha Hk) as (r & E & Hr & Hd & HC).
  exists r. split; auto. split; auto. split; auto. intros xs HX. rewrite <- HVa by auto. unfold value_at. rewrite coord_bezier, Hd.
  apply bezier_ext. intros i Hi. rewrite HC. destruct Ha as (_ & _ & _ & HL).
  rewrite (nth_indep _ v0 (coord d v0 k)) by (rewrite map_length; lia). apply (map_nth (fun p => coord d p k)).
Qed.

Lemma compose_isv {V} {ov : VOps T V} {M : VMod T V} {O : SOrder T} MAXB d (a : spline V) (b : spline (point T d)) D E f g :
  MAXB <= 68 -> isv a D f -> isv b E g -> length D = d ->
  (forall p k, In p (control_points b) -> k < d -> in_unit (coord _ p k)) ->
  Forall (fun p => list_sum D * p < MAXB) E -> Forall (fun p => p < MAXB) D ->
  exists r, Compose MAXB a b = Ok r /\ isv r (map (Nat.mul (list_sum D)) E) (fun xs => f (plist _ (g xs))).
Proof.
  intros HB (Ha & HD & HVa) (Hb & HE & HVb) HL HC HF HM. subst D E.
  destruct (Compose_ok MAXB HB _ b Hb HC a Ha HL HF HM) as (r & E & Hr & Hd & _).
  exists r. split; auto. split; auto. split; auto. intros xs HX. rewrite map_length in HX.
  rewrite (Compose_value MAXB HB _ b Hb HC a Ha HL HF HM r E xs HX). rewrite HVb by auto. apply HVa. now rewrite plist_length.
Qed.
End Laws.
