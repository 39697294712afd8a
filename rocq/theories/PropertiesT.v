(** Property C70: nested AlgoDiffType. *)
From Coq Require Import Arith Lia List Bool ZArith Reals Lra.
From Verif Require Import Prelude ModelAD SpecAD SpecNested ClaimsT.
Import ListNotations.
Local Open Scope R_scope.

(** C70: value, gradient and second derivatives. Near [xs], in direction [j], the function [g] is
    the [i]-th partial derivative; its derivative at [xs] is the entry of the result. *)
(** Missing from the full property: acos (false by C52_nested_acos_refuted) and pow(x, s) with a
    scalar s at x <= 0 (false by C70_negative_pow_refuted). *)
Theorem C70_hessian_partial : forall (e : expr) (xs : list R), differentiable e xs -> nested_dom e xs ->
  exists A, compute2 e xs = Ok A /\ ad_v (ad_v A) = value e xs /\
    length (ad_d (ad_v A)) = length xs /\ length (ad_d A) = length xs /\
    (forall i, (i < length xs)%nat ->
       derivable_pt_lim (fun y => value e (upd_list xs i y)) (nth i xs 0) (nth i (ad_d (ad_v A)) 0)) /\
    (forall i j (D := nth i (ad_d A) (AD_constant 0 0)), (i < length xs)%nat -> (j < length xs)%nat ->
       length (ad_d D) = length xs /\ ad_v D = nth i (ad_d (ad_v A)) 0 /\
       exists g : R -> R,
         (exists r, 0 < r /\ forall y, Rabs (y - nth j xs 0) < r -> let ys := upd_list xs j y in
            derivable_pt_lim (fun t => value e (upd_list ys i t)) (nth i ys 0) (g y)) /\
         derivable_pt_lim g (nth j xs 0) (nth j (ad_d D) 0)).
Proof. exact c70_hessian_partial. Qed.
Print Assumptions C70_hessian_partial.
Theorem C70_negative_pow_refuted : exists (e : expr) (xs : list R),
  differentiable e xs /\ compute2 e xs = NonFinite /\
  (forall x, value e [x] = x * x) /\ exists a, compute e xs = Ok a /\ ad_v a = 1 /\ ad_d a = [-2].
Proof. exact c70_negative_pow_refuted. Qed.
Print Assumptions C70_negative_pow_refuted.
(** x^2 y at (2, 3). *)
Example C70_case :
  let e := EBin BMul (EBin BMul (EVar 0) (EVar 0)) (EVar 1) in
  differentiable e [2; 3] /\ nested_dom e [2; 3] /\
  compute2 e [2; 3] = Ok (mkADT (mkADT 12 [12; 4]) [mkADT 12 [6; 4]; mkADT 4 [4; 0]]).
Proof.
  cbv zeta. split; [simpl; auto 10|]. split; [simpl; auto|].
  cbn. f_equal. f_equal; [|f_equal; [|f_equal]]; f_equal; try lra; f_equal; try lra; f_equal; lra.
Qed.
