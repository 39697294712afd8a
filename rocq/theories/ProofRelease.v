(** A build without assertions gives the same results as long as no assertion fails. *)
From Coq Require Import Arith List ZArith NArith Bool Ascii String Reals.
From Verif Require Import Prelude Scalar ModelBasis ModelSpline ModelRational ModelScalar ModelBase64 ModelAD ModelRelease SpecRelease.
Import ListNotations.
Local Open Scope nat_scope.

Lemma o_refl {A} (m : res A) : obeys m m.
Proof. intros _. reflexivity. Qed.
Lemma o_bind {A B} (m m' : res A) (k k' : A -> res B) : obeys m m' -> (forall x, obeys (k x) (k' x)) -> obeys (bind m k) (bind m' k').
Proof.
  intros H HK N. destruct m as [x| | | | |]; try (rewrite H by discriminate; reflexivity); [|elim N; reflexivity].
  rewrite H by discriminate. cbn [bind] in *. apply HK. exact N.
Qed.
Lemma o_assert {A} b (k : unit -> res A) m : obeys (k tt) m -> obeys (bind (assert_ b) k) m.
Proof. intros H N. destruct b; cbn in *; [apply H; exact N|elim N; reflexivity]. Qed.
Lemma o_assert_end b : obeys (assert_ b) (Ok tt).
Proof. intros N. destruct b; [reflexivity|elim N; reflexivity]. Qed.
Lemma o_for_up {A} n : forall lo (f g : nat -> A -> res A) a, (forall i x, obeys (f i x) (g i x)) -> obeys (for_up lo n f a) (for_up lo n g a).
Proof. induction n; intros lo f g a H; cbn [for_up]; [apply o_refl|]. apply o_bind; auto. Qed.
Lemma o_for_down {A} n : forall (f g : nat -> A -> res A) a, (forall i x, obeys (f i x) (g i x)) -> obeys (for_down n f a) (for_down n g a).
Proof. induction n; intros f g a H; cbn [for_down]; [apply o_refl|]. apply o_bind; auto. Qed.
Lemma o_while {A} n : forall c (f g : A -> res A) a, (forall x, obeys (f x) (g x)) -> obeys (while_ n c f a) (while_ n c g a).
Proof. induction n; intros c f g a H; cbn [while_]; [apply o_refl|]. destruct (c a); [apply o_bind; auto|apply o_refl]. Qed.
Lemma o_mapM {A B} (f g : A -> res B) l : (forall x, obeys (f x) (g x)) -> obeys (mapM f l) (mapM g l).
Proof. intros H. induction l; cbn [mapM]; [apply o_refl|]. apply o_bind; auto. intros x. apply o_bind; auto. intros. apply o_refl. Qed.

Ltac sim1 := cbv zeta; intros; first
  [ apply o_refl
  | solve [auto with sim nocore]
  | apply o_assert
  | apply o_assert_end
  | apply o_bind
  | apply o_for_up
  | apply o_for_down
  | apply o_while
  | apply o_mapM
  | match goal with |- obeys (match ?x with _ => _ end) _ => destruct x end
  | match goal with H : forall _, _ |- obeys (?f _) (?g _) => apply H end
  | match goal with H : forall _, _ |- obeys (?f _ _) (?g _ _) => apply H end ].
Lemma sim_choose : forall (x0 : nat) (x1 : nat) (x2 : nat),  obeys (@choose x0 x1 x2) (@choose_release x0 x1 x2).
Proof. intros; unfold choose, choose_release; repeat sim1. Qed.
#[local] Hint Resolve sim_choose : sim.
Lemma sim_BernsteinEvaluate : forall (x0 : nat) (T : Type) (x1 : SOps T) (x2 : nat) (x3 : T),  obeys (@BernsteinEvaluate x0 T x1 x2 x3) (@BernsteinEvaluate_release x0 T x1 x2 x3).
Proof. intros; unfold BernsteinEvaluate, BernsteinEvaluate_release; repeat sim1. Qed.
#[local] Hint Resolve sim_BernsteinEvaluate : sim.
Lemma sim_BernsteinEvaluateDerivative : forall (x0 : nat) (T : Type) (x1 : SOps T) (x2 : nat) (x3 : T) (x4 : nat),  obeys (@BernsteinEvaluateDerivative x0 T x1 x2 x3 x4) (@BernsteinEvaluateDerivative_release x0 T x1 x2 x3 x4).
Proof. intros; unfold BernsteinEvaluateDerivative, BernsteinEvaluateDerivative_release; repeat sim1. Qed.
#[local] Hint Resolve sim_BernsteinEvaluateDerivative : sim.
Lemma sim_Spline_deg_points : forall (V : Type) (x0 : list nat) (x1 : list V),  obeys (@Spline_deg_points V x0 x1) (@Spline_deg_points_release V x0 x1).
Proof. intros; unfold Spline_deg_points, Spline_deg_points_release; repeat sim1. Qed.
#[local] Hint Resolve sim_Spline_deg_points : sim.
Lemma sim_DerivativeWRT : forall (T : Type) (V : Type) (x0 : SOps T) (x1 : VOps T V) (x2 : nat) (x3 : spline V) (x4 : list nat),  obeys (@DerivativeWRT T V x0 x1 x2 x3 x4) (@DerivativeWRT_release T V x0 x1 x2 x3 x4).
Proof. intros; unfold DerivativeWRT, DerivativeWRT_release; repeat sim1. Qed.
#[local] Hint Resolve sim_DerivativeWRT : sim.
Lemma sim_BasisFunctionContributions : forall (T : Type) (V : Type) (x0 : SOps T) (x1 : nat) (x2 : spline V) (x3 : list T),  obeys (@BasisFunctionContributions T V x0 x1 x2 x3) (@BasisFunctionContributions_release T V x0 x1 x2 x3).
Proof. intros; unfold BasisFunctionContributions, BasisFunctionContributions_release; repeat sim1. Qed.
#[local] Hint Resolve sim_BasisFunctionContributions : sim.
Lemma sim_BasisFunctions : forall (T : Type) (V : Type) (x0 : SOps T) (x1 : nat) (x2 : spline V) (x3 : list T),  obeys (@BasisFunctions T V x0 x1 x2 x3) (@BasisFunctions_release T V x0 x1 x2 x3).
Proof. intros; unfold BasisFunctions, BasisFunctions_release; repeat sim1. Qed.
#[local] Hint Resolve sim_BasisFunctions : sim.
Lemma sim_ForwardEvaluate : forall (T : Type) (V : Type) (x0 : SOps T) (x1 : VOps T V) (x2 : nat) (x3 : spline V) (x4 : list T),  obeys (@ForwardEvaluate T V x0 x1 x2 x3 x4) (@ForwardEvaluate_release T V x0 x1 x2 x3 x4).
Proof. intros; unfold ForwardEvaluate, ForwardEvaluate_release; repeat sim1. Qed.
#[local] Hint Resolve sim_ForwardEvaluate : sim.
Lemma sim_BasisFunctionsDerivativeContributions : forall (T : Type) (V : Type) (x0 : SOps T) (x1 : nat) (x2 : spline V) (x3 : list T) (x4 : list nat),  obeys (@BasisFunctionsDerivativeContributions T V x0 x1 x2 x3 x4) (@BasisFunctionsDerivativeContributions_release T V x0 x1 x2 x3 x4).
Proof. intros; unfold BasisFunctionsDerivativeContributions, BasisFunctionsDerivativeContributions_release; repeat sim1. Qed.
#[local] Hint Resolve sim_BasisFunctionsDerivativeContributions : sim.
Lemma sim_BasisFunctionsDerivatives : forall (T : Type) (V : Type) (x0 : SOps T) (x1 : nat) (x2 : spline V) (x3 : list T) (x4 : list nat),  obeys (@BasisFunctionsDerivatives T V x0 x1 x2 x3 x4) (@BasisFunctionsDerivatives_release T V x0 x1 x2 x3 x4).
Proof. intros; unfold BasisFunctionsDerivatives, BasisFunctionsDerivatives_release; repeat sim1. Qed.
#[local] Hint Resolve sim_BasisFunctionsDerivatives : sim.
Lemma sim_EvaluateDerivative : forall (T : Type) (V : Type) (x0 : SOps T) (x1 : VOps T V) (x2 : nat) (x3 : spline V) (x4 : list T) (x5 : list nat),  obeys (@EvaluateDerivative T V x0 x1 x2 x3 x4 x5) (@EvaluateDerivative_release T V x0 x1 x2 x3 x4 x5).
Proof. intros; unfold EvaluateDerivative, EvaluateDerivative_release; repeat sim1. Qed.
#[local] Hint Resolve sim_EvaluateDerivative : sim.
Lemma sim_spline_add_rec : forall (T : Type) (V : Type) (x0 : SOps T) (x1 : VOps T V) (x2 : nat) (x3 : nat) (x4 : spline V) (x5 : spline V),  obeys (@spline_add_rec T V x0 x1 x2 x3 x4 x5) (@spline_add_rec_release T V x0 x1 x2 x3 x4 x5).
Proof.
  intros T V x0 x1 x2 x3 x4 x5. revert x3 x4 x5. induction x2 as [|x2 IH]; intros; cbn [spline_add_rec spline_add_rec_release]; repeat sim1.
Qed.
#[local] Hint Resolve sim_spline_add_rec : sim.
Lemma sim_spline_add : forall (T : Type) (V : Type) (x0 : SOps T) (x1 : VOps T V) (x2 : nat) (x3 : spline V) (x4 : spline V),  obeys (@spline_add T V x0 x1 x2 x3 x4) (@spline_add_release T V x0 x1 x2 x3 x4).
Proof. intros; unfold spline_add, spline_add_release; repeat sim1. Qed.
#[local] Hint Resolve sim_spline_add : sim.
Lemma sim_spline_sub : forall (T : Type) (V : Type) (x0 : SOps T) (x1 : VOps T V) (x2 : nat) (x3 : spline V) (x4 : spline V),  obeys (@spline_sub T V x0 x1 x2 x3 x4) (@spline_sub_release T V x0 x1 x2 x3 x4).
Proof. intros; unfold spline_sub, spline_sub_release; repeat sim1. Qed.
#[local] Hint Resolve sim_spline_sub : sim.
Lemma sim_CombineControlPoints : forall (x0 : nat) (T : Type) (V1 : Type) (V2 : Type) (V3 : Type) (x1 : SOps T) (x2 : VOps T V3) (x3 : (V1 -> V2 -> V3)) (x4 : nat) (x5 : spline V1) (x6 : spline V2) (x7 : list nat) (x8 : T) (x9 : list nat) (x10 : spline V3),  obeys (@CombineControlPoints x0 T V1 V2 V3 x1 x2 x3 x4 x5 x6 x7 x8 x9 x10) (@CombineControlPoints_release x0 T V1 V2 V3 x1 x2 x3 x4 x5 x6 x7 x8 x9 x10).
Proof.
  intros x0 T V1 V2 V3 x1 x2 x3 x4 x5 x6 x7 x8 x9 x10. revert x5 x6 x7 x8 x9 x10. induction x4 as [|x4 IH]; intros; cbn [CombineControlPoints CombineControlPoints_release]; repeat sim1.
Qed.
#[local] Hint Resolve sim_CombineControlPoints : sim.
Lemma sim_spline_mul : forall (x0 : nat) (T : Type) (V1 : Type) (V2 : Type) (V3 : Type) (x1 : SOps T) (x2 : VOps T V3) (x3 : (V1 -> V2 -> V3)) (x4 : spline V1) (x5 : spline V2),  obeys (@spline_mul x0 T V1 V2 V3 x1 x2 x3 x4 x5) (@spline_mul_release x0 T V1 V2 V3 x1 x2 x3 x4 x5).
Proof. intros; unfold spline_mul, spline_mul_release; repeat sim1. Qed.
#[local] Hint Resolve sim_spline_mul : sim.
Lemma sim_spline_mul_ss : forall (x0 : nat) (T : Type) (x1 : SOps T) (x2 : spline T) (x3 : spline T),  obeys (@spline_mul_ss x0 T x1 x2 x3) (@spline_mul_ss_release x0 T x1 x2 x3).
Proof. intros; unfold spline_mul_ss, spline_mul_ss_release; repeat sim1. Qed.
#[local] Hint Resolve sim_spline_mul_ss : sim.
Lemma sim_const_one : forall (T : Type) (x0 : SOps T) (x1 : nat),  obeys (@const_one T x0 x1) (@const_one_release T x0 x1).
Proof. intros; unfold const_one, const_one_release; repeat sim1. Qed.
#[local] Hint Resolve sim_const_one : sim.
Lemma sim_RaisePower_rec : forall (x0 : nat) (T : Type) (x1 : SOps T) (x2 : nat) (x3 : spline T) (x4 : nat),  obeys (@RaisePower_rec x0 T x1 x2 x3 x4) (@RaisePower_rec_release x0 T x1 x2 x3 x4).
Proof.
  intros x0 T x1 x2 x3 x4. revert x3 x4. induction x2 as [|x2 IH]; intros; cbn [RaisePower_rec RaisePower_rec_release]; repeat sim1.
Qed.
#[local] Hint Resolve sim_RaisePower_rec : sim.
Lemma sim_RaisePower : forall (x0 : nat) (T : Type) (x1 : SOps T) (x2 : spline T) (x3 : nat),  obeys (@RaisePower x0 T x1 x2 x3) (@RaisePower_release x0 T x1 x2 x3).
Proof. intros; unfold RaisePower, RaisePower_release; repeat sim1. Qed.
#[local] Hint Resolve sim_RaisePower : sim.
Lemma sim_bernstein_basis_splines : forall (x0 : nat) (T : Type) (x1 : SOps T) (x2 : nat) (x3 : nat) (x4 : spline T) (x5 : spline T),  obeys (@bernstein_basis_splines x0 T x1 x2 x3 x4 x5) (@bernstein_basis_splines_release x0 T x1 x2 x3 x4 x5).
Proof. intros; unfold bernstein_basis_splines, bernstein_basis_splines_release; repeat sim1. Qed.
#[local] Hint Resolve sim_bernstein_basis_splines : sim.
Lemma sim_all_basis_splines : forall (x0 : nat) (T : Type) (V : Type) (x1 : SOps T) (x2 : spline V) (x3 : nat) (x4 : nat -> res (spline T)) (x4' : nat -> res (spline T)) (x5 : spline T -> res (spline T)) (x5' : spline T -> res (spline T)), (forall z0, obeys (x4 z0) (x4' z0)) -> (forall z0, obeys (x5 z0) (x5' z0)) -> obeys (@all_basis_splines x0 T V x1 x2 x3 x4 x5) (@all_basis_splines_release x0 T V x1 x2 x3 x4' x5').
Proof. intros; unfold all_basis_splines, all_basis_splines_release; repeat sim1. Qed.
#[local] Hint Resolve sim_all_basis_splines : sim.
Lemma sim_tensor_spline : forall (x0 : nat) (T : Type) (x1 : SOps T) (x2 : list (list (spline T))) (x3 : list nat) (x4 : nat),  obeys (@tensor_spline x0 T x1 x2 x3 x4) (@tensor_spline_release x0 T x1 x2 x3 x4).
Proof. intros; unfold tensor_spline, tensor_spline_release; repeat sim1. Qed.
#[local] Hint Resolve sim_tensor_spline : sim.
Lemma sim_ComposeNumerator : forall (x0 : nat) (T : Type) (V : Type) (x1 : SOps T) (x2 : VOps T V) (x3 : spline V) (x4 : list nat) (x5 : nat -> res (spline T)) (x5' : nat -> res (spline T)) (x6 : spline T -> res (spline T)) (x6' : spline T -> res (spline T)), (forall z0, obeys (x5 z0) (x5' z0)) -> (forall z0, obeys (x6 z0) (x6' z0)) -> obeys (@ComposeNumerator x0 T V x1 x2 x3 x4 x5 x6) (@ComposeNumerator_release x0 T V x1 x2 x3 x4 x5' x6').
Proof. intros; unfold ComposeNumerator, ComposeNumerator_release; repeat sim1. Qed.
#[local] Hint Resolve sim_ComposeNumerator : sim.
Lemma sim_ComposeNumeratorSensitivity : forall (x0 : nat) (T : Type) (V : Type) (x1 : SOps T) (x2 : spline V) (x3 : list nat) (x4 : nat -> res (spline T)) (x4' : nat -> res (spline T)) (x5 : spline T -> res (spline T)) (x5' : spline T -> res (spline T)), (forall z0, obeys (x4 z0) (x4' z0)) -> (forall z0, obeys (x5 z0) (x5' z0)) -> obeys (@ComposeNumeratorSensitivity x0 T V x1 x2 x3 x4 x5) (@ComposeNumeratorSensitivity_release x0 T V x1 x2 x3 x4' x5').
Proof. intros; unfold ComposeNumeratorSensitivity, ComposeNumeratorSensitivity_release; repeat sim1. Qed.
#[local] Hint Resolve sim_ComposeNumeratorSensitivity : sim.
Lemma sim_Compose : forall (x0 : nat) (T : Type) (V : Type) (x1 : SOps T) (x2 : VOps T V) (d : nat) (x3 : spline V) (x4 : spline (point T d)),  obeys (@Compose x0 T V x1 x2 d x3 x4) (@Compose_release x0 T V x1 x2 d x3 x4).
Proof. intros; unfold Compose, Compose_release; repeat sim1. Qed.
#[local] Hint Resolve sim_Compose : sim.
Lemma sim_ComposeSensitivity : forall (x0 : nat) (T : Type) (V : Type) (x1 : SOps T) (d : nat) (x2 : spline V) (x3 : spline (point T d)),  obeys (@ComposeSensitivity x0 T V x1 d x2 x3) (@ComposeSensitivity_release x0 T V x1 d x2 x3).
Proof. intros; unfold ComposeSensitivity, ComposeSensitivity_release; repeat sim1. Qed.
#[local] Hint Resolve sim_ComposeSensitivity : sim.
Lemma sim_R_mk : forall (T : Type) (V : Type) (x0 : spline V) (x1 : spline T),  obeys (@R_mk T V x0 x1) (@R_mk_release T V x0 x1).
Proof. intros; unfold R_mk, R_mk_release; repeat sim1. Qed.
#[local] Hint Resolve sim_R_mk : sim.
Lemma sim_R_of_spline : forall (T : Type) (V : Type) (x0 : SOps T) (x1 : spline V),  obeys (@R_of_spline T V x0 x1) (@R_of_spline_release T V x0 x1).
Proof. intros; unfold R_of_spline, R_of_spline_release; repeat sim1. Qed.
#[local] Hint Resolve sim_R_of_spline : sim.
Lemma sim_R_deg_points : forall (T : Type) (V : Type) (x0 : VOps T V) (x1 : list nat) (x2 : list V) (x3 : list T),  obeys (@R_deg_points T V x0 x1 x2 x3) (@R_deg_points_release T V x0 x1 x2 x3).
Proof. intros; unfold R_deg_points, R_deg_points_release; repeat sim1. Qed.
#[local] Hint Resolve sim_R_deg_points : sim.
Lemma sim_R_UpdateDegrees : forall (T : Type) (V : Type) (x0 : SOps T) (x1 : VOps T V) (x2 : rspline T V) (x3 : list nat),  obeys (@R_UpdateDegrees T V x0 x1 x2 x3) (@R_UpdateDegrees_release T V x0 x1 x2 x3).
Proof. intros; unfold R_UpdateDegrees, R_UpdateDegrees_release; repeat sim1. Qed.
#[local] Hint Resolve sim_R_UpdateDegrees : sim.
Lemma sim_R_UnweightedBasisFunctions : forall (T : Type) (V : Type) (x0 : SOps T) (x1 : nat) (x2 : rspline T V) (x3 : list T),  obeys (@R_UnweightedBasisFunctions T V x0 x1 x2 x3) (@R_UnweightedBasisFunctions_release T V x0 x1 x2 x3).
Proof. intros; unfold R_UnweightedBasisFunctions, R_UnweightedBasisFunctions_release; repeat sim1. Qed.
#[local] Hint Resolve sim_R_UnweightedBasisFunctions : sim.
Lemma sim_R_BasisFunctions : forall (T : Type) (V : Type) (x0 : SOps T) (x1 : nat) (x2 : rspline T V) (x3 : list T),  obeys (@R_BasisFunctions T V x0 x1 x2 x3) (@R_BasisFunctions_release T V x0 x1 x2 x3).
Proof. intros; unfold R_BasisFunctions, R_BasisFunctions_release; repeat sim1. Qed.
#[local] Hint Resolve sim_R_BasisFunctions : sim.
Lemma sim_R_ForwardEvaluate : forall (T : Type) (V : Type) (x0 : SOps T) (x1 : VOps T V) (x2 : nat) (x3 : rspline T V) (x4 : list T),  obeys (@R_ForwardEvaluate T V x0 x1 x2 x3 x4) (@R_ForwardEvaluate_release T V x0 x1 x2 x3 x4).
Proof. intros; unfold R_ForwardEvaluate, R_ForwardEvaluate_release; repeat sim1. Qed.
#[local] Hint Resolve sim_R_ForwardEvaluate : sim.
Lemma sim_binom_product : forall (x0 : nat) (x1 : list nat) (x2 : list nat) (x3 : nat),  obeys (@binom_product x0 x1 x2 x3) (@binom_product_release x0 x1 x2 x3).
Proof. intros; unfold binom_product, binom_product_release; repeat sim1. Qed.
#[local] Hint Resolve sim_binom_product : sim.
Lemma sim_leibniz_loop : forall (T : Type) (x0 : SOps T) (x1 : nat) (X : Type) (x2 : X) (x3 : X -> T -> X -> res X) (x3' : X -> T -> X -> res X) (x4 : X -> res X) (x4' : X -> res X) (x5 : list nat) (x6 : nat) (x7 : list X) (x8 : list T), (forall z0 z1 z2, obeys (x3 z0 z1 z2) (x3' z0 z1 z2)) -> (forall z0, obeys (x4 z0) (x4' z0)) -> obeys (@leibniz_loop T x0 x1 X x2 x3 x4 x5 x6 x7 x8) (@leibniz_loop_release T x0 x1 X x2 x3' x4' x5 x6 x7 x8).
Proof. intros; unfold leibniz_loop, leibniz_loop_release; repeat sim1. Qed.
#[local] Hint Resolve sim_leibniz_loop : sim.
Lemma sim_R_EvaluateDerivative : forall (T : Type) (V : Type) (x0 : SOps T) (x1 : VOps T V) (x2 : nat) (x3 : rspline T V) (x4 : list T) (x5 : list nat),  obeys (@R_EvaluateDerivative T V x0 x1 x2 x3 x4 x5) (@R_EvaluateDerivative_release T V x0 x1 x2 x3 x4 x5).
Proof. intros; unfold R_EvaluateDerivative, R_EvaluateDerivative_release; repeat sim1. Qed.
#[local] Hint Resolve sim_R_EvaluateDerivative : sim.
Lemma sim_R_BasisFunctionsDerivatives : forall (T : Type) (V : Type) (x0 : SOps T) (x1 : nat) (x2 : rspline T V) (x3 : list T) (x4 : list nat),  obeys (@R_BasisFunctionsDerivatives T V x0 x1 x2 x3 x4) (@R_BasisFunctionsDerivatives_release T V x0 x1 x2 x3 x4).
Proof. intros; unfold R_BasisFunctionsDerivatives, R_BasisFunctionsDerivatives_release; repeat sim1. Qed.
#[local] Hint Resolve sim_R_BasisFunctionsDerivatives : sim.
Lemma sim_R_OrderElevate : forall (T : Type) (V : Type) (x0 : SOps T) (x1 : VOps T V) (x2 : rspline T V) (x3 : nat),  obeys (@R_OrderElevate T V x0 x1 x2 x3) (@R_OrderElevate_release T V x0 x1 x2 x3).
Proof. intros; unfold R_OrderElevate, R_OrderElevate_release; repeat sim1. Qed.
#[local] Hint Resolve sim_R_OrderElevate : sim.
Lemma sim_R_SplitAtPosition : forall (T : Type) (V : Type) (x0 : SOps T) (x1 : VOps T V) (x2 : rspline T V) (x3 : T) (x4 : nat),  obeys (@R_SplitAtPosition T V x0 x1 x2 x3 x4) (@R_SplitAtPosition_release T V x0 x1 x2 x3 x4).
Proof. intros; unfold R_SplitAtPosition, R_SplitAtPosition_release; repeat sim1. Qed.
#[local] Hint Resolve sim_R_SplitAtPosition : sim.
Lemma sim_R_SplitAtPositions : forall (T : Type) (V : Type) (x0 : SOps T) (x1 : VOps T V) (x2 : rspline T V) (x3 : list T) (x4 : nat),  obeys (@R_SplitAtPositions T V x0 x1 x2 x3 x4) (@R_SplitAtPositions_release T V x0 x1 x2 x3 x4).
Proof. intros; unfold R_SplitAtPositions, R_SplitAtPositions_release; repeat sim1. Qed.
#[local] Hint Resolve sim_R_SplitAtPositions : sim.
Lemma sim_R_scale_assign : forall (T : Type) (V : Type) (x0 : VOps T V) (x1 : rspline T V) (x2 : T),  obeys (@R_scale_assign T V x0 x1 x2) (@R_scale_assign_release T V x0 x1 x2).
Proof. intros; unfold R_scale_assign, R_scale_assign_release; repeat sim1. Qed.
#[local] Hint Resolve sim_R_scale_assign : sim.
Lemma sim_R_scale : forall (T : Type) (V : Type) (x0 : VOps T V) (x1 : rspline T V) (x2 : T),  obeys (@R_scale T V x0 x1 x2) (@R_scale_release T V x0 x1 x2).
Proof. intros; unfold R_scale, R_scale_release; repeat sim1. Qed.
#[local] Hint Resolve sim_R_scale : sim.
Lemma sim_R_shift_assign : forall (T : Type) (V : Type) (x0 : VOps T V) (x1 : rspline T V) (x2 : V),  obeys (@R_shift_assign T V x0 x1 x2) (@R_shift_assign_release T V x0 x1 x2).
Proof. intros; unfold R_shift_assign, R_shift_assign_release; repeat sim1. Qed.
#[local] Hint Resolve sim_R_shift_assign : sim.
Lemma sim_R_shift : forall (T : Type) (V : Type) (x0 : VOps T V) (x1 : rspline T V) (x2 : V),  obeys (@R_shift T V x0 x1 x2) (@R_shift_release T V x0 x1 x2).
Proof. intros; unfold R_shift, R_shift_release; repeat sim1. Qed.
#[local] Hint Resolve sim_R_shift : sim.
Lemma sim_R_unshift : forall (T : Type) (V : Type) (x0 : VOps T V) (x1 : rspline T V) (x2 : V),  obeys (@R_unshift T V x0 x1 x2) (@R_unshift_release T V x0 x1 x2).
Proof. intros; unfold R_unshift, R_unshift_release; repeat sim1. Qed.
#[local] Hint Resolve sim_R_unshift : sim.
Lemma sim_R_neg : forall (T : Type) (V : Type) (x0 : VOps T V) (x1 : rspline T V),  obeys (@R_neg T V x0 x1) (@R_neg_release T V x0 x1).
Proof. intros; unfold R_neg, R_neg_release; repeat sim1. Qed.
#[local] Hint Resolve sim_R_neg : sim.
Lemma sim_spline_mul_vs : forall (T : Type) (V : Type) (x0 : SOps T) (x1 : VOps T V) (x2 : nat) (x3 : spline V) (x4 : spline T),  obeys (@spline_mul_vs T V x0 x1 x2 x3 x4) (@spline_mul_vs_release T V x0 x1 x2 x3 x4).
Proof. intros; unfold spline_mul_vs, spline_mul_vs_release; repeat sim1. Qed.
#[local] Hint Resolve sim_spline_mul_vs : sim.
Lemma sim_spline_mul_sv : forall (T : Type) (V : Type) (x0 : SOps T) (x1 : VOps T V) (x2 : nat) (x3 : spline T) (x4 : spline V),  obeys (@spline_mul_sv T V x0 x1 x2 x3 x4) (@spline_mul_sv_release T V x0 x1 x2 x3 x4).
Proof. intros; unfold spline_mul_sv, spline_mul_sv_release; repeat sim1. Qed.
#[local] Hint Resolve sim_spline_mul_sv : sim.
Lemma sim_R_add : forall (T : Type) (V : Type) (x0 : SOps T) (x1 : VOps T V) (x2 : nat) (x3 : nat) (x4 : rspline T V) (x5 : rspline T V),  obeys (@R_add T V x0 x1 x2 x3 x4 x5) (@R_add_release T V x0 x1 x2 x3 x4 x5).
Proof. intros; unfold R_add, R_add_release; repeat sim1. Qed.
#[local] Hint Resolve sim_R_add : sim.
Lemma sim_R_add_assign : forall (T : Type) (V : Type) (x0 : SOps T) (x1 : VOps T V) (x2 : nat) (x3 : nat) (x4 : rspline T V) (x5 : rspline T V),  obeys (@R_add_assign T V x0 x1 x2 x3 x4 x5) (@R_add_assign_release T V x0 x1 x2 x3 x4 x5).
Proof. intros; unfold R_add_assign, R_add_assign_release; repeat sim1. Qed.
#[local] Hint Resolve sim_R_add_assign : sim.
Lemma sim_R_sub : forall (T : Type) (V : Type) (x0 : SOps T) (x1 : VOps T V) (x2 : nat) (x3 : nat) (x4 : rspline T V) (x5 : rspline T V),  obeys (@R_sub T V x0 x1 x2 x3 x4 x5) (@R_sub_release T V x0 x1 x2 x3 x4 x5).
Proof. intros; unfold R_sub, R_sub_release; repeat sim1. Qed.
#[local] Hint Resolve sim_R_sub : sim.
Lemma sim_R_sub_assign : forall (T : Type) (V : Type) (x0 : SOps T) (x1 : VOps T V) (x2 : nat) (x3 : nat) (x4 : rspline T V) (x5 : rspline T V),  obeys (@R_sub_assign T V x0 x1 x2 x3 x4 x5) (@R_sub_assign_release T V x0 x1 x2 x3 x4 x5).
Proof. intros; unfold R_sub_assign, R_sub_assign_release; repeat sim1. Qed.
#[local] Hint Resolve sim_R_sub_assign : sim.
Lemma sim_R_derivative_step : forall (T : Type) (V : Type) (x0 : SOps T) (x1 : VOps T V) (x2 : nat) (x3 : nat) (x4 : nat) (x5 : rspline T V),  obeys (@R_derivative_step T V x0 x1 x2 x3 x4 x5) (@R_derivative_step_release T V x0 x1 x2 x3 x4 x5).
Proof. intros; unfold R_derivative_step, R_derivative_step_release; repeat sim1. Qed.
#[local] Hint Resolve sim_R_derivative_step : sim.
Lemma sim_R_DerivativeWRT : forall (T : Type) (V : Type) (x0 : SOps T) (x1 : VOps T V) (x2 : nat) (x3 : nat) (x4 : rspline T V) (x5 : list nat),  obeys (@R_DerivativeWRT T V x0 x1 x2 x3 x4 x5) (@R_DerivativeWRT_release T V x0 x1 x2 x3 x4 x5).
Proof. intros; unfold R_DerivativeWRT, R_DerivativeWRT_release; repeat sim1. Qed.
#[local] Hint Resolve sim_R_DerivativeWRT : sim.
Lemma sim_R_mul : forall (x0 : nat) (T : Type) (V1 : Type) (V2 : Type) (V3 : Type) (x1 : SOps T) (x2 : VOps T V3) (x3 : (V1 -> V2 -> V3)) (x4 : rspline T V1) (x5 : rspline T V2),  obeys (@R_mul x0 T V1 V2 V3 x1 x2 x3 x4 x5) (@R_mul_release x0 T V1 V2 V3 x1 x2 x3 x4 x5).
Proof. intros; unfold R_mul, R_mul_release; repeat sim1. Qed.
#[local] Hint Resolve sim_R_mul : sim.
Lemma sim_inverse_rational : forall (x0 : nat) (T : Type) (x1 : SOps T) (x2 : spline T) (x3 : spline T),  obeys (@inverse_rational x0 T x1 x2 x3) (@inverse_rational_release x0 T x1 x2 x3).
Proof. intros; unfold inverse_rational, inverse_rational_release; repeat sim1. Qed.
#[local] Hint Resolve sim_inverse_rational : sim.
Lemma sim_ComposeNumerator_R : forall (x0 : nat) (x1 : nat) (T : Type) (x2 : SOps T) (d : nat) (V : Type) (x3 : VOps T V) (x4 : spline V) (x5 : rspline T (point T d)),  obeys (@ComposeNumerator_R x0 x1 T x2 d V x3 x4 x5) (@ComposeNumerator_R_release x0 x1 T x2 d V x3 x4 x5).
Proof. intros; unfold ComposeNumerator_R, ComposeNumerator_R_release; repeat sim1. Qed.
#[local] Hint Resolve sim_ComposeNumerator_R : sim.
Lemma sim_ComposeNumeratorSensitivity_R : forall (x0 : nat) (x1 : nat) (T : Type) (x2 : SOps T) (d : nat) (V : Type) (x3 : spline V) (x4 : rspline T (point T d)),  obeys (@ComposeNumeratorSensitivity_R x0 x1 T x2 d V x3 x4) (@ComposeNumeratorSensitivity_R_release x0 x1 T x2 d V x3 x4).
Proof. intros; unfold ComposeNumeratorSensitivity_R, ComposeNumeratorSensitivity_R_release; repeat sim1. Qed.
#[local] Hint Resolve sim_ComposeNumeratorSensitivity_R : sim.
Lemma sim_ComposeDenominator : forall (x0 : nat) (T : Type) (x1 : SOps T) (d : nat) (V : Type) (x2 : spline V) (x3 : rspline T (point T d)),  obeys (@ComposeDenominator x0 T x1 d V x2 x3) (@ComposeDenominator_release x0 T x1 d V x2 x3).
Proof. intros; unfold ComposeDenominator, ComposeDenominator_release; repeat sim1. Qed.
#[local] Hint Resolve sim_ComposeDenominator : sim.
Lemma sim_Compose_PR : forall (x0 : nat) (x1 : nat) (T : Type) (V : Type) (x2 : SOps T) (x3 : VOps T V) (d : nat) (x4 : spline V) (x5 : rspline T (point T d)),  obeys (@Compose_PR x0 x1 T V x2 x3 d x4 x5) (@Compose_PR_release x0 x1 T V x2 x3 d x4 x5).
Proof. intros; unfold Compose_PR, Compose_PR_release; repeat sim1. Qed.
#[local] Hint Resolve sim_Compose_PR : sim.
Lemma sim_ComposeSensitivity_PR : forall (x0 : nat) (x1 : nat) (T : Type) (V : Type) (x2 : SOps T) (d : nat) (x3 : spline V) (x4 : rspline T (point T d)),  obeys (@ComposeSensitivity_PR x0 x1 T V x2 d x3 x4) (@ComposeSensitivity_PR_release x0 x1 T V x2 d x3 x4).
Proof. intros; unfold ComposeSensitivity_PR, ComposeSensitivity_PR_release; repeat sim1. Qed.
#[local] Hint Resolve sim_ComposeSensitivity_PR : sim.
Lemma sim_Compose_RP : forall (x0 : nat) (T : Type) (V : Type) (x1 : SOps T) (x2 : VOps T V) (d : nat) (x3 : rspline T V) (x4 : spline (point T d)),  obeys (@Compose_RP x0 T V x1 x2 d x3 x4) (@Compose_RP_release x0 T V x1 x2 d x3 x4).
Proof. intros; unfold Compose_RP, Compose_RP_release; repeat sim1. Qed.
#[local] Hint Resolve sim_Compose_RP : sim.
Lemma sim_scale_sensitivities : forall (T : Type) (V : Type) (x0 : SOps T) (x1 : rspline T V) (x2 : list (spline T)) (x3 : spline T),  obeys (@scale_sensitivities T V x0 x1 x2 x3) (@scale_sensitivities_release T V x0 x1 x2 x3).
Proof. intros; unfold scale_sensitivities, scale_sensitivities_release; repeat sim1. Qed.
#[local] Hint Resolve sim_scale_sensitivities : sim.
Lemma sim_ComposeSensitivity_RP : forall (x0 : nat) (T : Type) (V : Type) (x1 : SOps T) (d : nat) (x2 : rspline T V) (x3 : spline (point T d)),  obeys (@ComposeSensitivity_RP x0 T V x1 d x2 x3) (@ComposeSensitivity_RP_release x0 T V x1 d x2 x3).
Proof. intros; unfold ComposeSensitivity_RP, ComposeSensitivity_RP_release; repeat sim1. Qed.
#[local] Hint Resolve sim_ComposeSensitivity_RP : sim.
Lemma sim_Compose_RR : forall (x0 : nat) (x1 : nat) (T : Type) (V : Type) (x2 : SOps T) (x3 : VOps T V) (d : nat) (x4 : rspline T V) (x5 : rspline T (point T d)),  obeys (@Compose_RR x0 x1 T V x2 x3 d x4 x5) (@Compose_RR_release x0 x1 T V x2 x3 d x4 x5).
Proof. intros; unfold Compose_RR, Compose_RR_release; repeat sim1. Qed.
#[local] Hint Resolve sim_Compose_RR : sim.
Lemma sim_ComposeSensitivity_RR : forall (x0 : nat) (x1 : nat) (T : Type) (V : Type) (x2 : SOps T) (d : nat) (x3 : rspline T V) (x4 : rspline T (point T d)),  obeys (@ComposeSensitivity_RR x0 x1 T V x2 d x3 x4) (@ComposeSensitivity_RR_release x0 x1 T V x2 d x3 x4).
Proof. intros; unfold ComposeSensitivity_RR, ComposeSensitivity_RR_release; repeat sim1. Qed.
#[local] Hint Resolve sim_ComposeSensitivity_RR : sim.
Lemma sim_Compose_s : forall (x0 : nat) (T : Type) (x1 : SOps T) (V : Type) (x2 : VOps T V) (x3 : spline V) (x4 : spline T),  obeys (@Compose_s x0 T x1 V x2 x3 x4) (@Compose_s_release x0 T x1 V x2 x3 x4).
Proof. intros; unfold Compose_s, Compose_s_release; repeat sim1. Qed.
#[local] Hint Resolve sim_Compose_s : sim.
Lemma sim_ComposeSensitivity_s : forall (x0 : nat) (T : Type) (V : Type) (x1 : SOps T) (x2 : spline V) (x3 : spline T),  obeys (@ComposeSensitivity_s x0 T V x1 x2 x3) (@ComposeSensitivity_s_release x0 T V x1 x2 x3).
Proof. intros; unfold ComposeSensitivity_s, ComposeSensitivity_s_release; repeat sim1. Qed.
#[local] Hint Resolve sim_ComposeSensitivity_s : sim.
Lemma sim_ComposeNumerator_R_s : forall (x0 : nat) (x1 : nat) (T : Type) (x2 : SOps T) (V : Type) (x3 : VOps T V) (x4 : spline V) (x5 : rspline T T),  obeys (@ComposeNumerator_R_s x0 x1 T x2 V x3 x4 x5) (@ComposeNumerator_R_s_release x0 x1 T x2 V x3 x4 x5).
Proof. intros; unfold ComposeNumerator_R_s, ComposeNumerator_R_s_release; repeat sim1. Qed.
#[local] Hint Resolve sim_ComposeNumerator_R_s : sim.
Lemma sim_ComposeNumeratorSensitivity_R_s : forall (x0 : nat) (x1 : nat) (T : Type) (x2 : SOps T) (V : Type) (x3 : spline V) (x4 : rspline T T),  obeys (@ComposeNumeratorSensitivity_R_s x0 x1 T x2 V x3 x4) (@ComposeNumeratorSensitivity_R_s_release x0 x1 T x2 V x3 x4).
Proof. intros; unfold ComposeNumeratorSensitivity_R_s, ComposeNumeratorSensitivity_R_s_release; repeat sim1. Qed.
#[local] Hint Resolve sim_ComposeNumeratorSensitivity_R_s : sim.
Lemma sim_ComposeDenominator_s : forall (x0 : nat) (T : Type) (x1 : SOps T) (V : Type) (x2 : spline V) (x3 : rspline T T),  obeys (@ComposeDenominator_s x0 T x1 V x2 x3) (@ComposeDenominator_s_release x0 T x1 V x2 x3).
Proof. intros; unfold ComposeDenominator_s, ComposeDenominator_s_release; repeat sim1. Qed.
#[local] Hint Resolve sim_ComposeDenominator_s : sim.
Lemma sim_Compose_PR_s : forall (x0 : nat) (x1 : nat) (T : Type) (V : Type) (x2 : SOps T) (x3 : VOps T V) (x4 : spline V) (x5 : rspline T T),  obeys (@Compose_PR_s x0 x1 T V x2 x3 x4 x5) (@Compose_PR_s_release x0 x1 T V x2 x3 x4 x5).
Proof. intros; unfold Compose_PR_s, Compose_PR_s_release; repeat sim1. Qed.
#[local] Hint Resolve sim_Compose_PR_s : sim.
Lemma sim_ComposeSensitivity_PR_s : forall (x0 : nat) (x1 : nat) (T : Type) (V : Type) (x2 : SOps T) (x3 : spline V) (x4 : rspline T T),  obeys (@ComposeSensitivity_PR_s x0 x1 T V x2 x3 x4) (@ComposeSensitivity_PR_s_release x0 x1 T V x2 x3 x4).
Proof. intros; unfold ComposeSensitivity_PR_s, ComposeSensitivity_PR_s_release; repeat sim1. Qed.
#[local] Hint Resolve sim_ComposeSensitivity_PR_s : sim.
Lemma sim_Compose_RP_s : forall (x0 : nat) (T : Type) (V : Type) (x1 : SOps T) (x2 : VOps T V) (x3 : rspline T V) (x4 : spline T),  obeys (@Compose_RP_s x0 T V x1 x2 x3 x4) (@Compose_RP_s_release x0 T V x1 x2 x3 x4).
Proof. intros; unfold Compose_RP_s, Compose_RP_s_release; repeat sim1. Qed.
#[local] Hint Resolve sim_Compose_RP_s : sim.
Lemma sim_ComposeSensitivity_RP_s : forall (x0 : nat) (T : Type) (V : Type) (x1 : SOps T) (x2 : rspline T V) (x3 : spline T),  obeys (@ComposeSensitivity_RP_s x0 T V x1 x2 x3) (@ComposeSensitivity_RP_s_release x0 T V x1 x2 x3).
Proof. intros; unfold ComposeSensitivity_RP_s, ComposeSensitivity_RP_s_release; repeat sim1. Qed.
#[local] Hint Resolve sim_ComposeSensitivity_RP_s : sim.
Lemma sim_Compose_RR_s : forall (x0 : nat) (x1 : nat) (T : Type) (V : Type) (x2 : SOps T) (x3 : VOps T V) (x4 : rspline T V) (x5 : rspline T T),  obeys (@Compose_RR_s x0 x1 T V x2 x3 x4 x5) (@Compose_RR_s_release x0 x1 T V x2 x3 x4 x5).
Proof. intros; unfold Compose_RR_s, Compose_RR_s_release; repeat sim1. Qed.
#[local] Hint Resolve sim_Compose_RR_s : sim.
Lemma sim_ComposeSensitivity_RR_s : forall (x0 : nat) (x1 : nat) (T : Type) (V : Type) (x2 : SOps T) (x3 : rspline T V) (x4 : rspline T T),  obeys (@ComposeSensitivity_RR_s x0 x1 T V x2 x3 x4) (@ComposeSensitivity_RR_s_release x0 x1 T V x2 x3 x4).
Proof. intros; unfold ComposeSensitivity_RR_s, ComposeSensitivity_RR_s_release; repeat sim1. Qed.
#[local] Hint Resolve sim_ComposeSensitivity_RR_s : sim.
Lemma sim_Decode : forall (x0 : nat) (x1 : list ascii),  obeys (@Decode x0 x1) (@Decode_release x0 x1).
Proof. intros; unfold Decode, Decode_release; repeat sim1. Qed.
#[local] Hint Resolve sim_Decode : sim.
Lemma sim_Decode_points : forall (x0 : nat) (x1 : nat) (x2 : list ascii),  obeys (@Decode_points x0 x1 x2) (@Decode_points_release x0 x1 x2).
Proof. intros; unfold Decode_points, Decode_points_release; repeat sim1. Qed.
#[local] Hint Resolve sim_Decode_points : sim.
Lemma sim_AD_input : forall (S : Type) (x0 : ADScalar S) (x1 : nat) (x2 : S) (x3 : nat),  obeys (@AD_input S x0 x1 x2 x3) (@AD_input_release S x0 x1 x2 x3).
Proof. intros; unfold AD_input, AD_input_release; repeat sim1. Qed.
#[local] Hint Resolve sim_AD_input : sim.
Lemma sim_same_number : forall (S : Type) (x0 : adt S) (x1 : adt S),  obeys (@same_number S x0 x1) (@same_number_release S x0 x1).
Proof. intros; unfold same_number, same_number_release; repeat sim1. Qed.
#[local] Hint Resolve sim_same_number : sim.
Lemma sim_AD_add_assign : forall (S : Type) (x0 : ADScalar S) (x1 : adt S) (x2 : adt S),  obeys (@AD_add_assign S x0 x1 x2) (@AD_add_assign_release S x0 x1 x2).
Proof. intros; unfold AD_add_assign, AD_add_assign_release; repeat sim1. Qed.
#[local] Hint Resolve sim_AD_add_assign : sim.
Lemma sim_AD_add : forall (S : Type) (x0 : ADScalar S) (x1 : adt S) (x2 : adt S),  obeys (@AD_add S x0 x1 x2) (@AD_add_release S x0 x1 x2).
Proof. intros; unfold AD_add, AD_add_release; repeat sim1. Qed.
#[local] Hint Resolve sim_AD_add : sim.
Lemma sim_AD_sub : forall (S : Type) (x0 : ADScalar S) (x1 : adt S) (x2 : adt S),  obeys (@AD_sub S x0 x1 x2) (@AD_sub_release S x0 x1 x2).
Proof. intros; unfold AD_sub, AD_sub_release; repeat sim1. Qed.
#[local] Hint Resolve sim_AD_sub : sim.
Lemma sim_AD_mul_assign : forall (S : Type) (x0 : ADScalar S) (x1 : adt S) (x2 : adt S),  obeys (@AD_mul_assign S x0 x1 x2) (@AD_mul_assign_release S x0 x1 x2).
Proof. intros; unfold AD_mul_assign, AD_mul_assign_release; repeat sim1. Qed.
#[local] Hint Resolve sim_AD_mul_assign : sim.
Lemma sim_AD_mul : forall (S : Type) (x0 : ADScalar S) (x1 : adt S) (x2 : adt S),  obeys (@AD_mul S x0 x1 x2) (@AD_mul_release S x0 x1 x2).
Proof. intros; unfold AD_mul, AD_mul_release; repeat sim1. Qed.
#[local] Hint Resolve sim_AD_mul : sim.
Lemma sim_AD_div_assign : forall (S : Type) (x0 : ADScalar S) (x1 : adt S) (x2 : adt S),  obeys (@AD_div_assign S x0 x1 x2) (@AD_div_assign_release S x0 x1 x2).
Proof. intros; unfold AD_div_assign, AD_div_assign_release; repeat sim1. Qed.
#[local] Hint Resolve sim_AD_div_assign : sim.
Lemma sim_AD_div : forall (S : Type) (x0 : ADScalar S) (x1 : adt S) (x2 : adt S),  obeys (@AD_div S x0 x1 x2) (@AD_div_release S x0 x1 x2).
Proof. intros; unfold AD_div, AD_div_release; repeat sim1. Qed.
#[local] Hint Resolve sim_AD_div : sim.
Lemma sim_AD_pow : forall (S : Type) (x0 : ADScalar S) (x1 : adt S) (x2 : adt S),  obeys (@AD_pow S x0 x1 x2) (@AD_pow_release S x0 x1 x2).
Proof. intros; unfold AD_pow, AD_pow_release; repeat sim1. Qed.
#[local] Hint Resolve sim_AD_pow : sim.
