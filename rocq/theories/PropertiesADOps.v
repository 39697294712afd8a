(** Properties C99 and C100: operations on splines over AlgoDiffType. *)
From Coq Require Import Arith Lia List Bool ZArith Reals Lra.
From Verif Require Import Prelude Scalar Spec SpecSpline ModelBasis ModelSpline ModelRational ModelPoint SpecRational
  SpecReal ModelAD ModelADSpline SpecADSpline ModelADOps SpecADOps ProofAD ClaimsADOps.
Import ListNotations.
Local Open Scope R_scope.

(** C99: every operation on splines over AlgoDiffType carries values and gradients. *)
Theorem C99_evaluate : forall (y : list R) (k : option nat) (MAXB : nat) (orders : list nat) (s : spline (phys (adt R) k)) (fs : list R -> spline (phys R k)) (xs : list (adt R)) (fxs : list R -> list R),
  tracks_spline (tracks_phys y k) s fs ->
  tracks_list (tracks y) xs fxs ->
  carries (tracks_phys y k) (AD_Evaluate (length y) s xs)
    (fun y' => Evaluate (fs y') (fxs y')) /\
  carries (tracks_phys y k) (AD_ForwardEvaluate (length y) MAXB s xs)
    (fun y' => ForwardEvaluate MAXB (fs y') (fxs y')) /\
  carries (tracks_phys y k) (AD_EvaluateDerivative (length y) MAXB s xs orders)
    (fun y' => EvaluateDerivative MAXB (fs y') (fxs y') orders).
Proof. exact c99_evaluate. Qed.
Print Assumptions C99_evaluate.
Theorem C99_basis : forall (y : list R) (k : option nat) (MAXB : nat) (orders : list nat) (s : spline (phys (adt R) k)) (fs : list R -> spline (phys R k)) (xs : list (adt R)) (fxs : list R -> list R),
  tracks_spline (tracks_phys y k) s fs ->
  tracks_list (tracks y) xs fxs ->
  carries (tracks_list (tracks y)) (AD_BasisFunctions (length y) MAXB s xs)
    (fun y' => BasisFunctions MAXB (fs y') (fxs y')) /\
  carries (tracks_list (tracks y)) (AD_BasisFunctionsDerivatives (length y) MAXB s xs orders)
    (fun y' => BasisFunctionsDerivatives MAXB (fs y') (fxs y') orders).
Proof. exact c99_basis. Qed.
Print Assumptions C99_basis.
Theorem C99_elevate : forall (y : list R) (k : option nat) (dim : nat) (s : spline (phys (adt R) k)) (fs : list R -> spline (phys R k)),
  tracks_spline (tracks_phys y k) s fs ->
  carries (tracks_spline (tracks_phys y k)) (AD_OrderElevate (length y) s dim)
    (fun y' => OrderElevate (fs y') dim).
Proof. exact c99_elevate. Qed.
Print Assumptions C99_elevate.
Theorem C99_update_degrees : forall (y : list R) (k : option nat) (degs : list nat) (s : spline (phys (adt R) k)) (fs : list R -> spline (phys R k)),
  tracks_spline (tracks_phys y k) s fs ->
  carries (tracks_spline (tracks_phys y k)) (AD_UpdateDegrees (length y) s degs)
    (fun y' => UpdateDegrees (fs y') degs).
Proof. exact c99_update_degrees. Qed.
Print Assumptions C99_update_degrees.
Theorem C99_derivative : forall (y : list R) (k : option nat) (MAXB : nat) (orders : list nat) (s : spline (phys (adt R) k)) (fs : list R -> spline (phys R k)),
  tracks_spline (tracks_phys y k) s fs ->
  carries (tracks_spline (tracks_phys y k)) (AD_DerivativeWRT (length y) MAXB s orders)
    (fun y' => DerivativeWRT MAXB (fs y') orders).
Proof. exact c99_derivative. Qed.
Print Assumptions C99_derivative.
Theorem C99_affine : forall (y : list R) (k : option nat) (s : spline (phys (adt R) k)) (fs : list R -> spline (phys R k)) (c : adt R) (fc : list R -> R) (p : phys (adt R) k) (fp : list R -> phys R k),
  tracks_spline (tracks_phys y k) s fs ->
  tracks y c fc ->
  tracks_phys y k p fp ->
  carries (tracks_spline (tracks_phys y k)) (AD_spline_scale (length y) s c)
    (fun y' => spline_scale (fs y') (fc y')) /\
  carries (tracks_spline (tracks_phys y k)) (AD_spline_shift (length y) s p)
    (fun y' => spline_shift (fs y') (fp y')) /\
  carries (tracks_spline (tracks_phys y k)) (AD_spline_unshift (length y) s p)
    (fun y' => spline_unshift (fs y') (fp y')) /\
  carries (tracks_spline (tracks_phys y k)) (AD_spline_neg (length y) s)
    (fun y' => spline_neg (fs y')) /\
  carries (tracks_spline (tracks_phys y k)) (AD_point_minus_spline (length y) p s)
    (fun y' => point_minus_spline (fp y') (fs y')).
Proof. exact c99_affine. Qed.
Print Assumptions C99_affine.
Theorem C99_sums : forall (y : list R) (k : option nat) (fuel : nat) (s : spline (phys (adt R) k)) (fs : list R -> spline (phys R k)) (t : spline (phys (adt R) k)) (ft : list R -> spline (phys R k)),
  tracks_spline (tracks_phys y k) s fs ->
  tracks_spline (tracks_phys y k) t ft ->
  carries (tracks_spline (tracks_phys y k)) (AD_spline_add (length y) fuel s t)
    (fun y' => spline_add fuel (fs y') (ft y')) /\
  carries (tracks_spline (tracks_phys y k)) (AD_spline_add_assign (length y) fuel s t)
    (fun y' => spline_add_assign fuel (fs y') (ft y')) /\
  carries (tracks_spline (tracks_phys y k)) (AD_spline_sub (length y) fuel s t)
    (fun y' => spline_sub fuel (fs y') (ft y')) /\
  carries (tracks_spline (tracks_phys y k)) (AD_spline_sub_assign (length y) fuel s t)
    (fun y' => spline_sub_assign fuel (fs y') (ft y')).
Proof. exact c99_sums. Qed.
Print Assumptions C99_sums.
Theorem C99_products : forall (y : list R) (k : option nat) (MAXB : nat) (s : spline (phys (adt R) k)) (fs : list R -> spline (phys R k)) (t : spline (adt R)) (ft : list R -> spline R),
  tracks_spline (tracks_phys y k) s fs ->
  tracks_spline (tracks y) t ft ->
  carries (tracks_spline (tracks_phys y k)) (AD_mul_vs (length y) MAXB s t)
    (fun y' => spline_mul_vs MAXB (fs y') (ft y')) /\
  carries (tracks_spline (tracks_phys y k)) (AD_mul_sv (length y) MAXB t s)
    (fun y' => spline_mul_sv MAXB (ft y') (fs y')).
Proof. exact c99_products. Qed.
Print Assumptions C99_products.
Theorem C99_dot : forall (y : list R) (d MAXB : nat) (s : spline (point (adt R) d)) (fs : list R -> spline (point R d)) (t : spline (point (adt R) d)) (ft : list R -> spline (point R d)),
  tracks_spline (tracks_point y d) s fs ->
  tracks_spline (tracks_point y d) t ft ->
  carries (tracks_spline (tracks y)) (AD_mul_dot (length y) MAXB s t)
    (fun y' => spline_mul MAXB (pdot d) (fs y') (ft y')).
Proof. exact c99_dot. Qed.
Print Assumptions C99_dot.
(** The product in C99_dot is the one of the class. *)
Theorem C99_dot_is : forall (S : Type) (o : SOps S) (d : nat) (p q : point S d), point_dot p q = Ok (pdot d p q).
Proof. exact c99_dot_is. Qed.
Print Assumptions C99_dot_is.
Theorem C99_power : forall (y : list R) (MAXB power : nat) (s : spline (adt R)) (fs : list R -> spline R),
  tracks_spline (tracks y) s fs ->
  carries (tracks_spline (tracks y)) (AD_RaisePower (length y) MAXB s power)
    (fun y' => RaisePower MAXB (fs y') power).
Proof. exact c99_power. Qed.
Print Assumptions C99_power.
Theorem C99_extract : forall (y : list R) (d i : nat) (s : spline (point (adt R) d)) (fs : list R -> spline (point R d)),
  tracks_spline (tracks_point y d) s fs ->
  carries (tracks_spline (tracks y)) (AD_ExtractDimension (length y) s i)
    (fun y' => ExtractDimension (fs y') i).
Proof. exact c99_extract. Qed.
Print Assumptions C99_extract.
Theorem C99_transpose : forall (y : list R) (d : nat) (s : spline (point (adt R) d)) (fs : list R -> spline (point R d)) (t : point (adt R) d) (ft : list R -> point R d) (c : point (adt R) d) (fc : list R -> point R d),
  tracks_spline (tracks_point y d) s fs ->
  tracks_point y d t ft ->
  tracks_point y d c fc ->
  carries (tracks_spline (tracks_point y d)) (AD_TransposeAndScale (length y) s t c)
    (fun y' => TransposeAndScale (fs y') (ft y') (fc y')).
Proof. exact c99_transpose. Qed.
Print Assumptions C99_transpose.
Theorem C99_split : forall (y : list R) (k : option nat) (dim : nat) (s : spline (phys (adt R) k)) (fs : list R -> spline (phys R k)) (x : adt R) (fx : list R -> R),
  tracks_spline (tracks_phys y k) s fs ->
  tracks y x fx ->
  carries_at y (tracks_list (tracks_spline (tracks_phys y k))) (AD_SplitAtPosition (length y) s x dim)
    (fun y' => SplitAtPosition (fs y') (fx y') dim).
Proof. exact c99_split. Qed.
Print Assumptions C99_split.
Theorem C99_split_many : forall (y : list R) (k : option nat) (dim : nat) (s : spline (phys (adt R) k)) (fs : list R -> spline (phys R k)) (xs : list (adt R)) (fxs : list R -> list R),
  tracks_spline (tracks_phys y k) s fs ->
  tracks_list (tracks y) xs fxs ->
  carries_at y (tracks_list (tracks_spline (tracks_phys y k))) (AD_SplitAtPositions (length y) s xs dim)
    (fun y' => SplitAtPositions (fs y') (fxs y') dim).
Proof. exact c99_split_many. Qed.
Print Assumptions C99_split_many.
Theorem C99_compose : forall (y : list R) (k : option nat) (d MAXB : nat) (s : spline (phys (adt R) k)) (fs : list R -> spline (phys R k)) (t : spline (point (adt R) d)) (ft : list R -> spline (point R d)),
  tracks_spline (tracks_phys y k) s fs ->
  tracks_spline (tracks_point y d) t ft ->
  carries_at y (tracks_spline (tracks_phys y k)) (AD_Compose (length y) MAXB s t)
    (fun y' => Compose MAXB (fs y') (ft y')) /\
  carries_at y (tracks_list (tracks_spline (tracks y))) (AD_ComposeSensitivity (length y) MAXB s t)
    (fun y' => ComposeSensitivity MAXB (fs y') (ft y')).
Proof. exact c99_compose. Qed.
Print Assumptions C99_compose.
Theorem C99_rational_evaluate : forall (y : list R) (k : option nat) (MAXB : nat) (index orders : list nat) (r : rspline (adt R) (phys (adt R) k)) (fr : list R -> rspline R (phys R k)) (xs : list (adt R)) (fxs : list R -> list R),
  tracks_rspline (tracks y) (tracks_phys y k) r fr ->
  tracks_list (tracks y) xs fxs ->
  carries_at y (tracks_phys y k) (AD_R_ControlPoint (length y) r index)
    (fun y' => R_ControlPoint (fr y') index) /\
  carries_at y (tracks_phys y k) (AD_R_Evaluate (length y) r xs)
    (fun y' => R_Evaluate (fr y') (fxs y')) /\
  carries_at y (tracks_phys y k) (AD_R_EvaluateDerivative (length y) MAXB r xs orders)
    (fun y' => R_EvaluateDerivative MAXB (fr y') (fxs y') orders).
Proof. exact c99_rational_evaluate. Qed.
Print Assumptions C99_rational_evaluate.
Theorem C99_rational_basis : forall (y : list R) (k : option nat) (MAXB : nat) (orders : list nat) (r : rspline (adt R) (phys (adt R) k)) (fr : list R -> rspline R (phys R k)) (xs : list (adt R)) (fxs : list R -> list R),
  tracks_rspline (tracks y) (tracks_phys y k) r fr ->
  tracks_list (tracks y) xs fxs ->
  carries_at y (tracks_list (tracks y)) (AD_R_BasisFunctions (length y) MAXB r xs)
    (fun y' => R_BasisFunctions MAXB (fr y') (fxs y')) /\
  carries_at y (tracks_list (tracks y)) (AD_R_BasisFunctionsDerivatives (length y) MAXB r xs orders)
    (fun y' => R_BasisFunctionsDerivatives MAXB (fr y') (fxs y') orders).
Proof. exact c99_rational_basis. Qed.
Print Assumptions C99_rational_basis.
Theorem C99_rational_elevate : forall (y : list R) (k : option nat) (dim : nat) (r : rspline (adt R) (phys (adt R) k)) (fr : list R -> rspline R (phys R k)),
  tracks_rspline (tracks y) (tracks_phys y k) r fr ->
  carries (tracks_rspline (tracks y) (tracks_phys y k)) (AD_R_OrderElevate (length y) r dim)
    (fun y' => R_OrderElevate (fr y') dim).
Proof. exact c99_rational_elevate. Qed.
Print Assumptions C99_rational_elevate.
Theorem C99_rational_derivative : forall (y : list R) (k : option nat) (MAXB fuel : nat) (orders : list nat) (r : rspline (adt R) (phys (adt R) k)) (fr : list R -> rspline R (phys R k)),
  tracks_rspline (tracks y) (tracks_phys y k) r fr ->
  carries (tracks_rspline (tracks y) (tracks_phys y k)) (AD_R_DerivativeWRT (length y) MAXB fuel r orders)
    (fun y' => R_DerivativeWRT MAXB fuel (fr y') orders).
Proof. exact c99_rational_derivative. Qed.
Print Assumptions C99_rational_derivative.
Theorem C99_rational_affine : forall (y : list R) (k : option nat) (r : rspline (adt R) (phys (adt R) k)) (fr : list R -> rspline R (phys R k)) (c : adt R) (fc : list R -> R) (p : phys (adt R) k) (fp : list R -> phys R k),
  tracks_rspline (tracks y) (tracks_phys y k) r fr ->
  tracks y c fc ->
  tracks_phys y k p fp ->
  carries (tracks_rspline (tracks y) (tracks_phys y k)) (AD_R_scale_assign (length y) r c)
    (fun y' => R_scale_assign (fr y') (fc y')) /\
  carries (tracks_rspline (tracks y) (tracks_phys y k)) (AD_R_shift_assign (length y) r p)
    (fun y' => R_shift_assign (fr y') (fp y')) /\
  carries (tracks_rspline (tracks y) (tracks_phys y k)) (AD_R_unshift_assign (length y) r p)
    (fun y' => R_unshift_assign (fr y') (fp y')) /\
  carries (tracks_rspline (tracks y) (tracks_phys y k)) (AD_R_neg (length y) r)
    (fun y' => R_neg (fr y')).
Proof. exact c99_rational_affine. Qed.
Print Assumptions C99_rational_affine.
Theorem C99_rational_products : forall (y : list R) (k : option nat) (MAXB : nat) (r : rspline (adt R) (phys (adt R) k)) (fr : list R -> rspline R (phys R k)) (q : rspline (adt R) (adt R)) (fq : list R -> rspline R R),
  tracks_rspline (tracks y) (tracks_phys y k) r fr ->
  tracks_rspline (tracks y) (tracks y) q fq ->
  carries (tracks_rspline (tracks y) (tracks_phys y k)) (AD_R_mul_vs (length y) MAXB r q)
    (fun y' => R_mul MAXB (fun p c => vscale c p) (fr y') (fq y')) /\
  carries (tracks_rspline (tracks y) (tracks_phys y k)) (AD_R_mul_sv (length y) MAXB q r)
    (fun y' => R_mul MAXB (fun c p => vscale c p) (fq y') (fr y')).
Proof. exact c99_rational_products. Qed.
Print Assumptions C99_rational_products.
Theorem C99_rational_dot : forall (y : list R) (d MAXB : nat) (r : rspline (adt R) (point (adt R) d)) (fr : list R -> rspline R (point R d)) (q : rspline (adt R) (point (adt R) d)) (fq : list R -> rspline R (point R d)),
  tracks_rspline (tracks y) (tracks_point y d) r fr ->
  tracks_rspline (tracks y) (tracks_point y d) q fq ->
  carries (tracks_rspline (tracks y) (tracks y)) (AD_R_mul_dot (length y) MAXB r q)
    (fun y' => R_mul MAXB (pdot d) (fr y') (fq y')).
Proof. exact c99_rational_dot. Qed.
Print Assumptions C99_rational_dot.
Theorem C99_rational_split : forall (y : list R) (k : option nat) (dim : nat) (r : rspline (adt R) (phys (adt R) k)) (fr : list R -> rspline R (phys R k)) (x : adt R) (fx : list R -> R),
  tracks_rspline (tracks y) (tracks_phys y k) r fr ->
  tracks y x fx ->
  carries_at y (tracks_list (tracks_rspline (tracks y) (tracks_phys y k))) (AD_R_SplitAtPosition (length y) r x dim)
    (fun y' => R_SplitAtPosition (fr y') (fx y') dim).
Proof. exact c99_rational_split. Qed.
Print Assumptions C99_rational_split.
Theorem C99_rational_split_many : forall (y : list R) (k : option nat) (dim : nat) (r : rspline (adt R) (phys (adt R) k)) (fr : list R -> rspline R (phys R k)) (xs : list (adt R)) (fxs : list R -> list R),
  tracks_rspline (tracks y) (tracks_phys y k) r fr ->
  tracks_list (tracks y) xs fxs ->
  carries_at y (tracks_list (tracks_rspline (tracks y) (tracks_phys y k))) (AD_R_SplitAtPositions (length y) r xs dim)
    (fun y' => R_SplitAtPositions (fr y') (fxs y') dim).
Proof. exact c99_rational_split_many. Qed.
Print Assumptions C99_rational_split_many.
Theorem C99_compose_rational : forall (y : list R) (k : option nat) (d MAXB fuel : nat) (s : spline (phys (adt R) k)) (fs : list R -> spline (phys R k)) (r : rspline (adt R) (phys (adt R) k)) (fr : list R -> rspline R (phys R k)) (p : spline (point (adt R) d)) (fp : list R -> spline (point R d)) (t : rspline (adt R) (point (adt R) d)) (ft : list R -> rspline R (point R d)),
  tracks_spline (tracks_phys y k) s fs ->
  tracks_rspline (tracks y) (tracks_phys y k) r fr ->
  tracks_spline (tracks_point y d) p fp ->
  tracks_rspline (tracks y) (tracks_point y d) t ft ->
  carries_at y (tracks_rspline (tracks y) (tracks_phys y k)) (AD_Compose_PR (length y) MAXB fuel s t)
    (fun y' => Compose_PR MAXB fuel (fs y') (ft y')) /\
  carries_at y (tracks_rspline (tracks y) (tracks_phys y k)) (AD_Compose_RP (length y) MAXB r p)
    (fun y' => Compose_RP MAXB (fr y') (fp y')) /\
  carries (tracks_rspline (tracks y) (tracks_phys y k)) (AD_Compose_RR (length y) MAXB fuel r t)
    (fun y' => Compose_RR MAXB fuel (fr y') (ft y')).
Proof. exact c99_compose_rational. Qed.
Print Assumptions C99_compose_rational.
Theorem C99_compose_rational_sensitivity : forall (y : list R) (k : option nat) (d MAXB fuel : nat) (s : spline (phys (adt R) k)) (fs : list R -> spline (phys R k)) (r : rspline (adt R) (phys (adt R) k)) (fr : list R -> rspline R (phys R k)) (p : spline (point (adt R) d)) (fp : list R -> spline (point R d)) (t : rspline (adt R) (point (adt R) d)) (ft : list R -> rspline R (point R d)),
  tracks_spline (tracks_phys y k) s fs ->
  tracks_rspline (tracks y) (tracks_phys y k) r fr ->
  tracks_spline (tracks_point y d) p fp ->
  tracks_rspline (tracks y) (tracks_point y d) t ft ->
  carries_at y (tracks_list (tracks_rspline (tracks y) (tracks y))) (AD_ComposeSensitivity_PR (length y) MAXB fuel s t)
    (fun y' => ComposeSensitivity_PR MAXB fuel (fs y') (ft y')) /\
  carries_at y (tracks_list (tracks_rspline (tracks y) (tracks y))) (AD_ComposeSensitivity_RP (length y) MAXB r p)
    (fun y' => ComposeSensitivity_RP MAXB (fr y') (fp y')) /\
  carries (tracks_list (tracks_rspline (tracks y) (tracks y))) (AD_ComposeSensitivity_RR (length y) MAXB fuel r t)
    (fun y' => ComposeSensitivity_RR MAXB fuel (fr y') (ft y')).
Proof. exact c99_compose_rational_sensitivity. Qed.
Print Assumptions C99_compose_rational_sensitivity.
(** Compare results entry by entry. *)
Ltac eqs := repeat first [reflexivity | match goal with |- @eq R _ _ => lra end | apply f_equal2 | apply f_equal].
(** The line from 2 to 5, both ends being inputs: elevated, and split at 1/4. *)
Example C99_case :
  let sa := mkSpline [1%nat] 2 [1%nat] [mkADT 2 [1; 0]; mkADT 5 [0; 1]] in
  tracks_spline (tracks_phys [2; 5] None) sa (fun y => mkSpline [1%nat] 2 [1%nat] [nth 0 y 0; nth 1 y 0]) /\
  AD_OrderElevate 2 (k := None) sa 0 =
    Ok (mkSpline [2%nat] 3 [1%nat] [mkADT 2 [1; 0]; mkADT (7 / 2) [1 / 2; 1 / 2]; mkADT 5 [0; 1]]) /\
  AD_SplitAtPosition 2 (k := None) sa (AD_constant 2 (1 / 4)) 0 =
    Ok [mkSpline [1%nat] 2 [1%nat] [mkADT 2 [1; 0]; mkADT (11 / 4) [3 / 4; 1 / 4]];
        mkSpline [1%nat] 2 [1%nat] [mkADT (11 / 4) [3 / 4; 1 / 4]; mkADT 5 [0; 1]]].
Proof.
  cbv zeta. split; [|split].
  - split; [repeat split|split; [reflexivity|]]. intros [|[|[|i]]] a z; try discriminate; simpl; intros [= <-];
      (split; [reflexivity|]; split; [reflexivity|]; intros [|[|i]] Hi; simpl in *; try lia;
       first [apply derivable_pt_lim_id | apply derivable_pt_lim_const]).
  - unfold AD_OrderElevate. cbn. replace (divS _ _) with (Ok (mkADT (1 / 2) [0 * 2 + 0; 0])).
    + cbn [bind]. change (Pos.to_nat 1) with 1%nat. cbn. change (Pos.to_nat 1) with 1%nat. change (Pos.to_nat 2) with 2%nat. cbn. change (Pos.to_nat 1) with 1%nat. cbn. eqs.
    + unfold divS. cbn. unfold AD_eq, eqb. cbn. destruct (Req_EM_T 2 0); [lra|]. unfold AD_div, AD_div_assign. cbn.
      rewrite !fdiv_ok by lra. cbn. eqs.
  - unfold AD_SplitAtPosition, SplitAtPosition. replace (_ && _)%bool with true.
    + cbn. change (Pos.to_nat 1) with 1%nat. cbn. change (Pos.to_nat 1) with 1%nat. cbn. eqs.
    + cbn. unfold AD_lt, s_lt_AD, AD_gt_s, gtb. cbn. repeat match goal with |- context [Rgt_dec ?a ?b] => destruct (Rgt_dec a b); [|lra] | |- context [Rlt_dec ?a ?b] => destruct (Rlt_dec a b); [|lra] end. reflexivity.
Qed.
(** The point 3 with weight 2 + y at y = 4. *)
Example C99_case_rational :
  let r := mkR (mkSpline [0%nat] 1 [1%nat] [mkADT 3 [0]]) (mkSpline [0%nat] 1 [1%nat] [mkADT 6 [1]]) in
  tracks_rspline (tracks [4]) (tracks_phys [4] None) r
    (fun y => mkR (mkSpline [0%nat] 1 [1%nat] [3]) (mkSpline [0%nat] 1 [1%nat] [2 + nth 0 y 0])) /\
  AD_R_ControlPoint 1 (k := None) r [0%nat] = Ok (mkADT (1 / 2) [- 1 / 12]).
Proof.
  cbv zeta. split.
  - split; (split; [repeat split|split; [reflexivity|]]); intros [|[|i]] a z; try discriminate; simpl; intros [= <-].
    + split; [reflexivity|]. split; [reflexivity|]. intros [|i] Hi; simpl in *; [apply derivable_pt_lim_const|lia].
    + split; [simpl; lra|]. split; [reflexivity|]. intros [|i] Hi; simpl in *; [|lia].
      replace 1 with (0 + 1) by lra. apply (derivable_pt_lim_plus (fun _ => 2) (fun t => t)); [apply derivable_pt_lim_const|apply derivable_pt_lim_id].
  - cbn. unfold vdiv, divS. cbn. unfold AD_eq. cbn. unfold eqb. destruct (Req_EM_T 6 0); [lra|].
    cbn. rewrite !fdiv_ok by lra. cbn. apply f_equal, f_equal2; [lra|]. apply f_equal2; [lra|reflexivity].
Qed.

(** C100: sums of rational splines over AlgoDiffType. *)
(** Missing from the full property: operator+ and operator- compare the weights of the operands by
    their values only.  The gradients are right if this comparison gives the same for all values of
    the variables; if the weights agree at the current values but not in their gradients, the shortcut
    for equal weights drops a part of the gradient. *)
Theorem C100_sums_partial : forall (y : list R) (k : option nat) (MAXB fuel : nat) (r : rspline (adt R) (phys (adt R) k)) (fr : list R -> rspline R (phys R k)) (q : rspline (adt R) (phys (adt R) k)) (fq : list R -> rspline R (phys R k)),
  tracks_rspline (tracks y) (tracks_phys y k) r fr ->
  tracks_rspline (tracks y) (tracks_phys y k) q fq ->
  (forall y', spline_eqb (weight_function (fr y')) (weight_function (fq y')) =
     spline_eqb (weight_function (fr y)) (weight_function (fq y))) ->
  carries (tracks_rspline (tracks y) (tracks_phys y k)) (AD_R_add (length y) MAXB fuel r q)
    (fun y' => R_add MAXB fuel (fr y') (fq y')) /\
  carries (tracks_rspline (tracks y) (tracks_phys y k)) (AD_R_add_assign (length y) MAXB fuel r q)
    (fun y' => R_add_assign MAXB fuel (fr y') (fq y')) /\
  carries (tracks_rspline (tracks y) (tracks_phys y k)) (AD_R_sub (length y) MAXB fuel r q)
    (fun y' => R_sub MAXB fuel (fr y') (fq y')) /\
  carries (tracks_rspline (tracks y) (tracks_phys y k)) (AD_R_sub_assign (length y) MAXB fuel r q)
    (fun y' => R_sub_assign MAXB fuel (fr y') (fq y')).
Proof. exact c100_sums_partial. Qed.
Print Assumptions C100_sums_partial.
Theorem C100_sums_refuted : exists (r q s : rspline (adt R) (adt R)) (fr fq : list R -> rspline R R) (a : adt R),
  tracks_rspline (tracks [1]) (tracks [1]) r fr /\ tracks_rspline (tracks [1]) (tracks [1]) q fq /\
  AD_R_add 1 (k := None) 2 3 r q = Ok s /\ AD_R_Evaluate 1 (k := None) s [AD_constant 1 0] = Ok a /\
  (forall t, 0 < t -> exists p, R_add 2 3 (fr [t]) (fq [t]) = Ok p /\ R_Evaluate p [0] = Ok (1 / t + 1)) /\
  derivable_pt_lim (fun t => 1 / t + 1) 1 (-1) /\ ad_v a = 2 /\ ad_d a = [-2].
Proof. exact c100_sums_refuted. Qed.
Print Assumptions C100_sums_refuted.
(** The hypothesis holds for splines with constant equal weights. *)
Example C100_case :
  let r := mkR (mkSpline [0%nat] 1 [1%nat] [mkADT 3 [1]]) (mkSpline [0%nat] 1 [1%nat] [mkADT 2 [0]]) in
  let f := fun y : list R => mkR (mkSpline [0%nat] 1 [1%nat] [nth 0 y 0]) (mkSpline [0%nat] 1 [1%nat] [2]) in
  tracks_rspline (tracks [3]) (tracks_phys [3] None) r f /\
  (forall y', spline_eqb (weight_function (f y')) (weight_function (f y')) =
     spline_eqb (weight_function (f [3])) (weight_function (f [3]))) /\
  AD_R_add 1 (k := None) 2 3 r r = Ok (mkR (mkSpline [0%nat] 1 [1%nat] [mkADT 6 [2]]) (mkSpline [0%nat] 1 [1%nat] [mkADT 2 [0]])).
Proof.
  cbv zeta. split; [|split].
  - split; (split; [repeat split|split; [reflexivity|]]); intros [|[|i]] a z; try discriminate; simpl; intros [= <-].
    + split; [reflexivity|]. split; [reflexivity|]. intros [|i] Hi; simpl in *; [apply derivable_pt_lim_id|lia].
    + split; [reflexivity|]. split; [reflexivity|]. intros [|i] Hi; simpl in *; [apply derivable_pt_lim_const|lia].
  - reflexivity.
  - unfold AD_R_add, R_add. cbn [weight_function weighted_spline]. replace (spline_eqb _ _) with true.
    + cbn. unfold with_cps. cbn. eqs.
    + cbn. unfold AD_eq, eqb. cbn. destruct (Req_EM_T 2 2); [reflexivity|lra].
Qed.
