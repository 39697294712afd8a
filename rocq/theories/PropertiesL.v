(** Properties C50-C52: algorithmic differentiation. *)
From Coq Require Import Arith Lia List Bool ZArith Reals Lra.
From Verif Require Import Prelude ModelAD SpecAD ProofAD ClaimsL ClaimsL2.
Import ListNotations.
Local Open Scope R_scope.

(** C50: values and derivatives of expressions. *)
(** Missing from the full property: expressions that compute pow(x, 0) at x = 0 (refuted by the next
    theorem). *)
Theorem C50_exact_partial : forall (e : expr) (xs : list R),
  differentiable e xs -> no_zero_pow_zero e xs ->
  exists a, compute e xs = Ok a /\ ad_v a = value e xs /\ length (ad_d a) = length xs /\
    forall i, (i < length xs)%nat ->
      derivable_pt_lim (fun y => value e (upd_list xs i y)) (nth i xs 0) (nth i (ad_d a) 0).
Proof. exact c50_exact_partial. Qed.
Print Assumptions C50_exact_partial.
Theorem C50_zero_pow_zero_refuted : exists (e : expr) (xs : list R),
  differentiable e xs /\ compute e xs = NonFinite /\
  value e xs = 1 /\ derivable_pt_lim (fun y => value e (upd_list xs 0 y)) (nth 0 xs 0) 0.
Proof. exact c50_zero_pow_zero_refuted. Qed.
Print Assumptions C50_zero_pow_zero_refuted.
(** C50: away from corners, an expression is computed only where it is differentiable. *)
Theorem C50_defined : forall (e : expr) (xs : list R), no_corner e xs ->
  ((exists a, compute e xs = Ok a) <-> differentiable e xs /\ no_zero_pow_zero e xs).
Proof. exact c50_defined. Qed.
Print Assumptions C50_defined.
Theorem C50_abs_corner : forall a : adt R, ad_v a = 0 ->
  exists r, AD_abs a = Ok r /\ ad_v r = 0 /\ ad_d r = map Ropp (ad_d a).
Proof. exact c50_abs_corner. Qed.
Print Assumptions C50_abs_corner.
(** x * y + exp(x) / 2 at (0, 3). *)
Example C50_case :
  let e := EBin BAdd (EBin BMul (EVar 0) (EVar 1)) (EMix RDiv (EUn UExp (EVar 0)) 2) in
  differentiable e [0; 3] /\ no_zero_pow_zero e [0; 3] /\ no_corner e [0; 3] /\
  exists a, compute e [0; 3] = Ok a /\ ad_v a = 1 / 2 /\ ad_d a = [7 / 2; 0].
Proof.
  cbv zeta. split; [|split; [|split]].
  - simpl. repeat split; try lia; lra.
  - simpl. repeat split; intros; discriminate.
  - simpl. repeat split; intros; discriminate.
  - eexists. split.
    + simpl. unfold AD_div_scalar. cbn. rewrite fdiv_ok by lra. cbn. reflexivity.
    + cbn. rewrite exp_0. split; [lra|]. f_equal; [lra|]. f_equal. lra.
Qed.

(** C51: comparisons. *)
Theorem C51_comparisons : forall (a b : adt R) (s : R),
  (AD_lt a b = true <-> ad_v a < ad_v b) /\ (AD_le a b = true <-> ad_v a <= ad_v b) /\
  (AD_gt a b = true <-> ad_v a > ad_v b) /\ (AD_ge a b = true <-> ad_v a >= ad_v b) /\
  (AD_eq a b = true <-> ad_v a = ad_v b) /\ (AD_ne a b = true <-> ad_v a <> ad_v b) /\
  (AD_lt_s a s = true <-> ad_v a < s) /\ (AD_le_s a s = true <-> ad_v a <= s) /\
  (AD_gt_s a s = true <-> ad_v a > s) /\ (AD_ge_s a s = true <-> ad_v a >= s) /\
  (AD_eq_s a s = true <-> ad_v a = s) /\ (AD_ne_s a s = true <-> ad_v a <> s) /\
  (s_lt_AD s a = true <-> s < ad_v a) /\ (s_le_AD s a = true <-> s <= ad_v a) /\
  (s_gt_AD s a = true <-> s > ad_v a) /\ (s_ge_AD s a = true <-> s >= ad_v a) /\
  (s_eq_AD s a = true <-> s = ad_v a) /\ (s_ne_AD s a = true <-> s <> ad_v a).
Proof. exact c51_comparisons. Qed.
Print Assumptions C51_comparisons.
Theorem C51_coherent : forall (a b : adt R) (s : R),
  AD_ne a b = negb (AD_eq a b) /\ AD_ge a b = negb (AD_lt a b) /\ AD_le a b = negb (AD_gt a b) /\
  AD_ne_s a s = negb (AD_eq_s a s) /\ AD_ge_s a s = negb (AD_lt_s a s) /\ AD_le_s a s = negb (AD_gt_s a s) /\
  s_ne_AD s a = negb (s_eq_AD s a) /\ s_ge_AD s a = negb (s_lt_AD s a) /\ s_le_AD s a = negb (s_gt_AD s a).
Proof. exact c51_coherent. Qed.
Print Assumptions C51_coherent.
Example C51_case : AD_lt (mkADT 1 [5]) (mkADT 2 [-5]) = true /\ AD_ge (mkADT 1 [5]) (mkADT 1 [7]) = true /\
  AD_ne (mkADT 1 [5]) (mkADT 1 [7]) = false /\ s_gt_AD 3 (mkADT 4 []) = false.
Proof.
  unfold AD_lt, AD_ge, AD_ne, s_gt_AD, s_lt_AD, s_ne_AD, AD_gt_s, AD_lt_s, AD_eq_s. cbn [ad_v].
  rewrite gtb_true, geb_true, gtb_false by lra. repeat split; auto.
  apply negb_false_iff, eqb_iff. reflexivity.
Qed.

(** C52: nested types. *)
Theorem C52_nested_acos_refuted : exists x r : adt (adt R), AD_input (os := ADScalar_nested 1) 1 (AD_constant 1 0) 0 = Ok x /\
    AD_acos (os := ADScalar_nested 1) x = Ok r /\
    ad_v (ad_v r) = cos 0 /\ ad_v (ad_v r) <> acos (ad_v (ad_v x)).
Proof. exact c52_nested_acos_refuted. Qed.
Print Assumptions C52_nested_acos_refuted.
