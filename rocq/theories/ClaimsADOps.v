(** Operations on splines over AlgoDiffType. *)
From Coq Require Import Arith Lia List ZArith NArith Bool Reals Lra.
From Verif Require Import Prelude Scalar ModelBasis ModelSpline ModelRational ModelPoint Spec SpecSpline Coord SpecRational SpecReal ModelAD ProofAD
  ModelADSpline SpecADSpline ModelADOps SpecADOps ProofParam ProofParamOps ProofParamRat ClaimsG ClaimsQ ProofADOps.
Import ListNotations.
Local Open Scope R_scope.

Lemma list_eqb_rel {A B} (P : A -> B -> Prop) e e' l m l' m' :
  (forall x y x' y', P x x' -> P y y' -> e x y = e' x' y') -> Forall2 P l l' -> Forall2 P m m' -> list_eqb e l m = list_eqb e' l' m'.
Proof.
  intros H HL. revert m m'. induction HL; intros m m' HM; destruct HM; simpl; eauto. f_equal; eauto.
Qed.
Definition rel_eq {T1 T2} {o1 : SOps T1} {o2 : SOps T2} (RT : T1 -> T2 -> Prop) : Prop :=
  forall a b a' b', RT a a' -> RT b b' -> seqb a b = seqb a' b'.
Lemma spline_eqb_rel {T1 T2} {o1 : SOps T1} {o2 : SOps T2} (RT : T1 -> T2 -> Prop) s t s' t' :
  rel_eq RT -> srel RT s s' -> srel RT t t' ->
  spline_eqb (ov := VOps_scalar T1) s t = spline_eqb (ov := VOps_scalar T2) s' t'.
Proof.
  intros H Hs Ht. unfold spline_eqb. rewrite (sr_deg _ _ _ Hs), (sr_deg _ _ _ Ht). destruct (list_eqb Nat.eqb _ _); eauto.
  apply (list_eqb_rel RT); [exact H|apply Ht|apply Hs].
Qed.
Lemma eq1 y : rel_eq (o1 := SOps_AD (length y)) (o2 := SOps_fun y) (tracks y).
Proof. intros a b a' b' (A & _) (B & _). cbn. unfold AD_eq, eqb. rewrite A, B. reflexivity. Qed.
Lemma eq2 y : rel_eq (o1 := SOps_fun y) (at_point (A := R) y).
Proof. unfold at_point. intros a b a' b' <- <-. reflexivity. Qed.

Lemma wres_all_fail {A B} (P : A -> B -> Prop) m m' : fails m \/ fails m' -> wres P m m'.
Proof. destruct m, m'; simpl; tauto. Qed.


Lemma c99_elevate : forall (y : list R) (k : option nat) (dim : nat) (s : spline (phys (adt R) k)) (fs : list R -> spline (phys R k)),
  tracks_spline (tracks_phys y k) s fs ->
  carries (tracks_spline (tracks_phys y k)) (AD_OrderElevate (length y) s dim)
    (fun y' => OrderElevate (fs y') dim).
Proof.
  intros. 
  match goal with H : tracks_spline (tracks_phys y k) s fs |- _ => destruct (rep_in _ _ _ (rep_spline (rep_phys y k)) _ _ H) as (Fs & Ps & Qs); clear H end.
  unfold AD_OrderElevate. eapply carries_of; [exact (rep_spline (rep_phys y k))|apply (OrderElevate_rel _ _ (ring1 y) (mod1 y k)); eauto|intros y'; apply (OrderElevate_rel _ _ (ring2 y y') (mod2 y y' k)); eauto].
Qed.

Lemma c99_update_degrees : forall (y : list R) (k : option nat) (degs : list nat) (s : spline (phys (adt R) k)) (fs : list R -> spline (phys R k)),
  tracks_spline (tracks_phys y k) s fs ->
  carries (tracks_spline (tracks_phys y k)) (AD_UpdateDegrees (length y) s degs)
    (fun y' => UpdateDegrees (fs y') degs).
Proof.
  intros. 
  match goal with H : tracks_spline (tracks_phys y k) s fs |- _ => destruct (rep_in _ _ _ (rep_spline (rep_phys y k)) _ _ H) as (Fs & Ps & Qs); clear H end.
  unfold AD_UpdateDegrees. eapply carries_of; [exact (rep_spline (rep_phys y k))|apply (UpdateDegrees_rel _ _ (mod1 y k)); eauto|intros y'; apply (UpdateDegrees_rel _ _ (mod2 y y' k)); eauto].
Qed.

Lemma c99_evaluate : forall (y : list R) (k : option nat) (MAXB : nat) (orders : list nat) (s : spline (phys (adt R) k)) (fs : list R -> spline (phys R k)) (xs : list (adt R)) (fxs : list R -> list R),
  tracks_spline (tracks_phys y k) s fs ->
  tracks_list (tracks y) xs fxs ->
  carries (tracks_phys y k) (AD_Evaluate (length y) s xs)
    (fun y' => Evaluate (fs y') (fxs y')) /\
  carries (tracks_phys y k) (AD_ForwardEvaluate (length y) MAXB s xs)
    (fun y' => ForwardEvaluate MAXB (fs y') (fxs y')) /\
  carries (tracks_phys y k) (AD_EvaluateDerivative (length y) MAXB s xs orders)
    (fun y' => EvaluateDerivative MAXB (fs y') (fxs y') orders).
Proof.
  intros. 
  match goal with H : tracks_spline (tracks_phys y k) s fs |- _ => destruct (rep_in _ _ _ (rep_spline (rep_phys y k)) _ _ H) as (Fs & Ps & Qs); clear H end.
  match goal with H : tracks_list (tracks y) xs fxs |- _ => destruct (rep_in _ _ _ (rep_list (rep_scalar y)) _ _ H) as (Fxs & Pxs & Qxs); clear H end.
  repeat match goal with |- _ /\ _ => split end.
  - unfold AD_Evaluate. eapply carries_of; [exact (rep_phys y k)|apply (Evaluate_rel _ _ (rr'_ring _ (ring1 y)) (rm'_mod _ _ (mod1 y k))); eauto|intros y'; apply (Evaluate_rel _ _ (rr'_ring _ (ring2 y y')) (rm'_mod _ _ (mod2 y y' k))); eauto].
  - unfold AD_ForwardEvaluate. eapply carries_of; [exact (rep_phys y k)|apply (ForwardEvaluate_rel _ _ (rr'_ring _ (ring1 y)) (rm'_mod _ _ (mod1 y k))); eauto|intros y'; apply (ForwardEvaluate_rel _ _ (rr'_ring _ (ring2 y y')) (rm'_mod _ _ (mod2 y y' k))); eauto].
  - unfold AD_EvaluateDerivative. eapply carries_of; [exact (rep_phys y k)|apply (EvaluateDerivative_rel _ _ (ring1 y) (mod1 y k)); eauto|intros y'; apply (EvaluateDerivative_rel _ _ (ring2 y y') (mod2 y y' k)); eauto].
Qed.

Lemma c99_basis : forall (y : list R) (k : option nat) (MAXB : nat) (orders : list nat) (s : spline (phys (adt R) k)) (fs : list R -> spline (phys R k)) (xs : list (adt R)) (fxs : list R -> list R),
  tracks_spline (tracks_phys y k) s fs ->
  tracks_list (tracks y) xs fxs ->
  carries (tracks_list (tracks y)) (AD_BasisFunctions (length y) MAXB s xs)
    (fun y' => BasisFunctions MAXB (fs y') (fxs y')) /\
  carries (tracks_list (tracks y)) (AD_BasisFunctionsDerivatives (length y) MAXB s xs orders)
    (fun y' => BasisFunctionsDerivatives MAXB (fs y') (fxs y') orders).
Proof.
  intros. 
  match goal with H : tracks_spline (tracks_phys y k) s fs |- _ => destruct (rep_in _ _ _ (rep_spline (rep_phys y k)) _ _ H) as (Fs & Ps & Qs); clear H end.
  match goal with H : tracks_list (tracks y) xs fxs |- _ => destruct (rep_in _ _ _ (rep_list (rep_scalar y)) _ _ H) as (Fxs & Pxs & Qxs); clear H end.
  repeat match goal with |- _ /\ _ => split end.
  - unfold AD_BasisFunctions. eapply carries_of; [exact (rep_list (rep_scalar y))|apply (BasisFunctions_rel _ (vrel (tracks y) k) (rr'_ring _ (ring1 y))); eauto|intros y'; apply (BasisFunctions_rel _ (vrel (at_point (A := R) y') k) (rr'_ring _ (ring2 y y'))); eauto].
  - unfold AD_BasisFunctionsDerivatives. eapply carries_of; [exact (rep_list (rep_scalar y))|apply (BasisFunctionsDerivatives_rel _ (vrel (tracks y) k) (ring1 y)); eauto|intros y'; apply (BasisFunctionsDerivatives_rel _ (vrel (at_point (A := R) y') k) (ring2 y y')); eauto].
Qed.

Lemma c99_derivative : forall (y : list R) (k : option nat) (MAXB : nat) (orders : list nat) (s : spline (phys (adt R) k)) (fs : list R -> spline (phys R k)),
  tracks_spline (tracks_phys y k) s fs ->
  carries (tracks_spline (tracks_phys y k)) (AD_DerivativeWRT (length y) MAXB s orders)
    (fun y' => DerivativeWRT MAXB (fs y') orders).
Proof.
  intros. 
  match goal with H : tracks_spline (tracks_phys y k) s fs |- _ => destruct (rep_in _ _ _ (rep_spline (rep_phys y k)) _ _ H) as (Fs & Ps & Qs); clear H end.
  unfold AD_DerivativeWRT. eapply carries_of; [exact (rep_spline (rep_phys y k))|apply (DerivativeWRT_rel _ _ (ring1 y) (mod1 y k)); eauto|intros y'; apply (DerivativeWRT_rel _ _ (ring2 y y') (mod2 y y' k)); eauto].
Qed.

Lemma c99_affine : forall (y : list R) (k : option nat) (s : spline (phys (adt R) k)) (fs : list R -> spline (phys R k)) (c : adt R) (fc : list R -> R) (p : phys (adt R) k) (fp : list R -> phys R k),
  tracks_spline (tracks_phys y k) s fs ->
  tracks y c fc ->
  tracks_phys y k p fp ->
  carries (tracks_spline (tracks_phys y k)) (AD_spline_scale (length y) s c)
    (fun y' => spline_scale (fs y') (fc y')) /\
  carries (tracks_spline (tracks_phys y k)) (AD_spline_shift (length y) s p)
    (fun y' => spline_shift (fs y') (fp y')) /\
  carries (tracks_spline (tracks_phys y k)) (AD_spline_unshift (length y) s p)
    (fun y' => spline_unshift (fs y') (fp y')) /\
  carries (tracks_spline (tracks_phys y k)) (AD_spline_neg (length y) s)
    (fun y' => spline_neg (fs y')) /\
  carries (tracks_spline (tracks_phys y k)) (AD_point_minus_spline (length y) p s)
    (fun y' => point_minus_spline (fp y') (fs y')).
Proof.
  intros. 
  match goal with H : tracks_spline (tracks_phys y k) s fs |- _ => destruct (rep_in _ _ _ (rep_spline (rep_phys y k)) _ _ H) as (Fs & Ps & Qs); clear H end.
  match goal with H : tracks y c fc |- _ => destruct (rep_in _ _ _ (rep_scalar y) _ _ H) as (Fc & Pc & Qc); clear H end.
  match goal with H : tracks_phys y k p fp |- _ => destruct (rep_in _ _ _ (rep_phys y k) _ _ H) as (Fp & Pp & Qp); clear H end.
  repeat match goal with |- _ /\ _ => split end.
  - unfold AD_spline_scale. eapply carries_of; [exact (rep_spline (rep_phys y k))|apply (scale_assign_rel _ _ (mod1 y k)); eauto|intros y'; apply (scale_assign_rel _ _ (mod2 y y' k)); eauto].
  - unfold AD_spline_shift. eapply carries_of; [exact (rep_spline (rep_phys y k))|apply (shift_assign_rel _ _ (mod1 y k)); eauto|intros y'; apply (shift_assign_rel _ _ (mod2 y y' k)); eauto].
  - unfold AD_spline_unshift. eapply carries_of; [exact (rep_spline (rep_phys y k))|apply (unshift_assign_rel _ _ (mod1 y k)); eauto|intros y'; apply (unshift_assign_rel _ _ (mod2 y y' k)); eauto].
  - unfold AD_spline_neg. eapply carries_of; [exact (rep_spline (rep_phys y k))|apply (spline_neg_rel _ _ (mod1 y k)); eauto|intros y'; apply (spline_neg_rel _ _ (mod2 y y' k)); eauto].
  - unfold AD_point_minus_spline. eapply carries_of; [exact (rep_spline (rep_phys y k))|apply (point_minus_spline_rel _ _ (mod1 y k)); eauto|intros y'; apply (point_minus_spline_rel _ _ (mod2 y y' k)); eauto].
Qed.

Lemma c99_sums : forall (y : list R) (k : option nat) (fuel : nat) (s : spline (phys (adt R) k)) (fs : list R -> spline (phys R k)) (t : spline (phys (adt R) k)) (ft : list R -> spline (phys R k)),
  tracks_spline (tracks_phys y k) s fs ->
  tracks_spline (tracks_phys y k) t ft ->
  carries (tracks_spline (tracks_phys y k)) (AD_spline_add (length y) fuel s t)
    (fun y' => spline_add fuel (fs y') (ft y')) /\
  carries (tracks_spline (tracks_phys y k)) (AD_spline_add_assign (length y) fuel s t)
    (fun y' => spline_add_assign fuel (fs y') (ft y')) /\
  carries (tracks_spline (tracks_phys y k)) (AD_spline_sub (length y) fuel s t)
    (fun y' => spline_sub fuel (fs y') (ft y')) /\
  carries (tracks_spline (tracks_phys y k)) (AD_spline_sub_assign (length y) fuel s t)
    (fun y' => spline_sub_assign fuel (fs y') (ft y')).
Proof.
  intros. 
  match goal with H : tracks_spline (tracks_phys y k) s fs |- _ => destruct (rep_in _ _ _ (rep_spline (rep_phys y k)) _ _ H) as (Fs & Ps & Qs); clear H end.
  match goal with H : tracks_spline (tracks_phys y k) t ft |- _ => destruct (rep_in _ _ _ (rep_spline (rep_phys y k)) _ _ H) as (Ft & Pt & Qt); clear H end.
  repeat match goal with |- _ /\ _ => split end.
  - unfold AD_spline_add. eapply carries_of; [exact (rep_spline (rep_phys y k))|apply (spline_add_rel _ _ (ring1 y) (mod1 y k)); eauto|intros y'; apply (spline_add_rel _ _ (ring2 y y') (mod2 y y' k)); eauto].
  - unfold AD_spline_add_assign. eapply carries_of; [exact (rep_spline (rep_phys y k))|apply (spline_add_assign_rel _ _ (ring1 y) (mod1 y k)); eauto|intros y'; apply (spline_add_assign_rel _ _ (ring2 y y') (mod2 y y' k)); eauto].
  - unfold AD_spline_sub. eapply carries_of; [exact (rep_spline (rep_phys y k))|apply (spline_sub_rel _ _ (ring1 y) (mod1 y k)); eauto|intros y'; apply (spline_sub_rel _ _ (ring2 y y') (mod2 y y' k)); eauto].
  - unfold AD_spline_sub_assign. eapply carries_of; [exact (rep_spline (rep_phys y k))|apply (spline_sub_assign_rel _ _ (ring1 y) (mod1 y k)); eauto|intros y'; apply (spline_sub_assign_rel _ _ (ring2 y y') (mod2 y y' k)); eauto].
Qed.

Lemma c99_products : forall (y : list R) (k : option nat) (MAXB : nat) (s : spline (phys (adt R) k)) (fs : list R -> spline (phys R k)) (t : spline (adt R)) (ft : list R -> spline R),
  tracks_spline (tracks_phys y k) s fs ->
  tracks_spline (tracks y) t ft ->
  carries (tracks_spline (tracks_phys y k)) (AD_mul_vs (length y) MAXB s t)
    (fun y' => spline_mul_vs MAXB (fs y') (ft y')) /\
  carries (tracks_spline (tracks_phys y k)) (AD_mul_sv (length y) MAXB t s)
    (fun y' => spline_mul_sv MAXB (ft y') (fs y')).
Proof.
  intros. 
  match goal with H : tracks_spline (tracks_phys y k) s fs |- _ => destruct (rep_in _ _ _ (rep_spline (rep_phys y k)) _ _ H) as (Fs & Ps & Qs); clear H end.
  match goal with H : tracks_spline (tracks y) t ft |- _ => destruct (rep_in _ _ _ (rep_spline (rep_scalar y)) _ _ H) as (Ft & Pt & Qt); clear H end.
  repeat match goal with |- _ /\ _ => split end.
  - unfold AD_mul_vs. eapply carries_of; [exact (rep_spline (rep_phys y k))|apply (spline_mul_vs_rel _ (ring1 y) _ (mod1 y k)); eauto|intros y'; apply (spline_mul_vs_rel _ (ring2 y y') _ (mod2 y y' k)); eauto].
  - unfold AD_mul_sv. eapply carries_of; [exact (rep_spline (rep_phys y k))|apply (spline_mul_sv_rel _ (ring1 y) _ (mod1 y k)); eauto|intros y'; apply (spline_mul_sv_rel _ (ring2 y y') _ (mod2 y y' k)); eauto].
Qed.

Lemma c99_dot_is : forall (S : Type) (o : SOps S) (d : nat) (p q : point S d), point_dot p q = Ok (pdot d p q).
Proof.
  intros S o d p q. unfold pdot.
  enough (H : exists x, point_dot p q = Ok x) by (destruct H as (x & ->); reflexivity).
  unfold point_dot. edestruct (for_up_inv (fun (_ : nat) (_ : S) => True)) as (r & E & _); [exact I| |exists r; exact E].
  intros i x Hi _. cbv beta. rewrite !pget_ok by lia. cbn [bind]. eexists. split; [reflexivity|exact I].
Qed.

Lemma c99_dot : forall (y : list R) (d MAXB : nat) (s : spline (point (adt R) d)) (fs : list R -> spline (point R d)) (t : spline (point (adt R) d)) (ft : list R -> spline (point R d)),
  tracks_spline (tracks_point y d) s fs ->
  tracks_spline (tracks_point y d) t ft ->
  carries (tracks_spline (tracks y)) (AD_mul_dot (length y) MAXB s t)
    (fun y' => spline_mul MAXB (pdot d) (fs y') (ft y')).
Proof.
  intros. 
  match goal with H : tracks_spline (tracks_point y d) s fs |- _ => destruct (rep_in _ _ _ (rep_spline (rep_point y d)) _ _ H) as (Fs & Ps & Qs); clear H end.
  match goal with H : tracks_spline (tracks_point y d) t ft |- _ => destruct (rep_in _ _ _ (rep_spline (rep_point y d)) _ _ H) as (Ft & Pt & Qt); clear H end.
  unfold AD_mul_dot. eapply carries_of; [exact (rep_spline (rep_scalar y))|apply (spline_mul_rel _ _ _ _ (ring1 y) (rel_mod_scalar _ (ring1 y)) (pdot d) (pdot d) (fun a b a' b' => pdot_rel _ d a b a' b' (ring1 y))); eauto|intros y'; apply (spline_mul_rel _ _ _ _ (ring2 y y') (rel_mod_scalar _ (ring2 y y')) (pdot d) (pdot d) (fun a b a' b' => pdot_rel _ d a b a' b' (ring2 y y'))); eauto].
Qed.

Lemma c99_power : forall (y : list R) (MAXB power : nat) (s : spline (adt R)) (fs : list R -> spline R),
  tracks_spline (tracks y) s fs ->
  carries (tracks_spline (tracks y)) (AD_RaisePower (length y) MAXB s power)
    (fun y' => RaisePower MAXB (fs y') power).
Proof.
  intros. 
  match goal with H : tracks_spline (tracks y) s fs |- _ => destruct (rep_in _ _ _ (rep_spline (rep_scalar y)) _ _ H) as (Fs & Ps & Qs); clear H end.
  unfold AD_RaisePower. eapply carries_of; [exact (rep_spline (rep_scalar y))|apply (RaisePower_rel _ (ring1 y)); eauto|intros y'; apply (RaisePower_rel _ (ring2 y y')); eauto].
Qed.

Lemma c99_extract : forall (y : list R) (d i : nat) (s : spline (point (adt R) d)) (fs : list R -> spline (point R d)),
  tracks_spline (tracks_point y d) s fs ->
  carries (tracks_spline (tracks y)) (AD_ExtractDimension (length y) s i)
    (fun y' => ExtractDimension (fs y') i).
Proof.
  intros. 
  match goal with H : tracks_spline (tracks_point y d) s fs |- _ => destruct (rep_in _ _ _ (rep_spline (rep_point y d)) _ _ H) as (Fs & Ps & Qs); clear H end.
  unfold AD_ExtractDimension. eapply carries_of; [exact (rep_spline (rep_scalar y))|apply (ExtractDimension_rel _ (ring1 y)); eauto|intros y'; apply (ExtractDimension_rel _ (ring2 y y')); eauto].
Qed.

Lemma c99_transpose : forall (y : list R) (d : nat) (s : spline (point (adt R) d)) (fs : list R -> spline (point R d)) (t : point (adt R) d) (ft : list R -> point R d) (c : point (adt R) d) (fc : list R -> point R d),
  tracks_spline (tracks_point y d) s fs ->
  tracks_point y d t ft ->
  tracks_point y d c fc ->
  carries (tracks_spline (tracks_point y d)) (AD_TransposeAndScale (length y) s t c)
    (fun y' => TransposeAndScale (fs y') (ft y') (fc y')).
Proof.
  intros. 
  match goal with H : tracks_spline (tracks_point y d) s fs |- _ => destruct (rep_in _ _ _ (rep_spline (rep_point y d)) _ _ H) as (Fs & Ps & Qs); clear H end.
  match goal with H : tracks_point y d t ft |- _ => destruct (rep_in _ _ _ (rep_point y d) _ _ H) as (Ft & Pt & Qt); clear H end.
  match goal with H : tracks_point y d c fc |- _ => destruct (rep_in _ _ _ (rep_point y d) _ _ H) as (Fc & Pc & Qc); clear H end.
  unfold AD_TransposeAndScale. eapply carries_of; [exact (rep_spline (rep_point y d))|apply (TransposeAndScale_rel _ (ring1 y)); eauto|intros y'; apply (TransposeAndScale_rel _ (ring2 y y')); eauto].
Qed.

Lemma c99_split : forall (y : list R) (k : option nat) (dim : nat) (s : spline (phys (adt R) k)) (fs : list R -> spline (phys R k)) (x : adt R) (fx : list R -> R),
  tracks_spline (tracks_phys y k) s fs ->
  tracks y x fx ->
  carries_at y (tracks_list (tracks_spline (tracks_phys y k))) (AD_SplitAtPosition (length y) s x dim)
    (fun y' => SplitAtPosition (fs y') (fx y') dim).
Proof.
  intros. 
  match goal with H : tracks_spline (tracks_phys y k) s fs |- _ => destruct (rep_in _ _ _ (rep_spline (rep_phys y k)) _ _ H) as (Fs & Ps & Qs); clear H end.
  match goal with H : tracks y x fx |- _ => destruct (rep_in _ _ _ (rep_scalar y) _ _ H) as (Fx & Px & Qx); clear H end.
  unfold AD_SplitAtPosition. eapply carries_at_of; [exact (rep_list (rep_spline (rep_phys y k)))|apply (Split_L _ (ring1 y) _ (mod1 y k) (fun _ _ => rres) (fun _ _ _ _ _ H => H) (or_introl (lt1 y))); eauto|apply (Split_L _ (ring2 y y) _ (mod2 y y k) (fun _ _ => rres) (fun _ _ _ _ _ H => H) (or_introl (lt2 y))); eauto|intros y'; apply (Split_L _ (ring2 y y') _ (mod2 y y' k) (fun _ _ => wres) (fun _ _ => wres_of) (or_intror (fun _ _ => wres_all_fail))); eauto].
Qed.

Lemma c99_split_many : forall (y : list R) (k : option nat) (dim : nat) (s : spline (phys (adt R) k)) (fs : list R -> spline (phys R k)) (xs : list (adt R)) (fxs : list R -> list R),
  tracks_spline (tracks_phys y k) s fs ->
  tracks_list (tracks y) xs fxs ->
  carries_at y (tracks_list (tracks_spline (tracks_phys y k))) (AD_SplitAtPositions (length y) s xs dim)
    (fun y' => SplitAtPositions (fs y') (fxs y') dim).
Proof.
  intros. 
  match goal with H : tracks_spline (tracks_phys y k) s fs |- _ => destruct (rep_in _ _ _ (rep_spline (rep_phys y k)) _ _ H) as (Fs & Ps & Qs); clear H end.
  match goal with H : tracks_list (tracks y) xs fxs |- _ => destruct (rep_in _ _ _ (rep_list (rep_scalar y)) _ _ H) as (Fxs & Pxs & Qxs); clear H end.
  unfold AD_SplitAtPositions. eapply carries_at_of; [exact (rep_list (rep_spline (rep_phys y k)))|apply (SplitAtPositions_rel _ (ring1 y) _ (mod1 y k) (fun _ _ => rres) (fun _ _ _ _ _ H => H) (fun _ _ _ _ => rres_bind) (divS_AD y) (or_introl (lt1 y))); eauto|apply (SplitAtPositions_rel _ (ring2 y y) _ (mod2 y y k) (fun _ _ => rres) (fun _ _ _ _ _ H => H) (fun _ _ _ _ => rres_bind) (div2 y) (or_introl (lt2 y))); eauto|intros y'; apply (SplitAtPositions_rel _ (ring2 y y') _ (mod2 y y' k) (fun _ _ => wres) (fun _ _ => wres_of) (fun _ _ _ _ => wres_bind) (div3 y y') (or_intror (fun _ _ => wres_all_fail))); eauto].
Qed.

Lemma c99_compose : forall (y : list R) (k : option nat) (d MAXB : nat) (s : spline (phys (adt R) k)) (fs : list R -> spline (phys R k)) (t : spline (point (adt R) d)) (ft : list R -> spline (point R d)),
  tracks_spline (tracks_phys y k) s fs ->
  tracks_spline (tracks_point y d) t ft ->
  carries_at y (tracks_spline (tracks_phys y k)) (AD_Compose (length y) MAXB s t)
    (fun y' => Compose MAXB (fs y') (ft y')) /\
  carries_at y (tracks_list (tracks_spline (tracks y))) (AD_ComposeSensitivity (length y) MAXB s t)
    (fun y' => ComposeSensitivity MAXB (fs y') (ft y')).
Proof.
  intros. 
  match goal with H : tracks_spline (tracks_phys y k) s fs |- _ => destruct (rep_in _ _ _ (rep_spline (rep_phys y k)) _ _ H) as (Fs & Ps & Qs); clear H end.
  match goal with H : tracks_spline (tracks_point y d) t ft |- _ => destruct (rep_in _ _ _ (rep_spline (rep_point y d)) _ _ H) as (Ft & Pt & Qt); clear H end.
  repeat match goal with |- _ /\ _ => split end.
  - unfold AD_Compose. eapply carries_at_of; [exact (rep_spline (rep_phys y k))|apply (Compose_L _ (ring1 y) (fun _ _ => rres) (fun _ _ _ _ _ H => H) (fun _ _ _ _ => rres_bind) (or_introl (lt1 y)) _ (mod1 y k)); eauto|apply (Compose_L _ (ring2 y y) (fun _ _ => rres) (fun _ _ _ _ _ H => H) (fun _ _ _ _ => rres_bind) (or_introl (lt2 y)) _ (mod2 y y k)); eauto|intros y'; apply (Compose_L _ (ring2 y y') (fun _ _ => wres) (fun _ _ => wres_of) (fun _ _ _ _ => wres_bind) (or_intror (fun _ _ => wres_all_fail)) _ (mod2 y y' k)); eauto].
  - unfold AD_ComposeSensitivity. eapply carries_at_of; [exact (rep_list (rep_spline (rep_scalar y)))|apply (ComposeSensitivity_L (ow1 := VOps_phys (adt R) k (o := SOps_AD (length y))) (ow2 := (VOps_phys (list R -> R) k (o := SOps_fun y))) _ (ring1 y) (fun _ _ => rres) (fun _ _ _ _ _ H => H) (fun _ _ _ _ => rres_bind) (or_introl (lt1 y)) (vrel (tracks y) k)); eauto|apply (ComposeSensitivity_L (ow1 := (VOps_phys (list R -> R) k (o := SOps_fun y))) (ow2 := VOps_phys R k) _ (ring2 y y) (fun _ _ => rres) (fun _ _ _ _ _ H => H) (fun _ _ _ _ => rres_bind) (or_introl (lt2 y)) (vrel (at_point (A := R) y) k)); eauto|intros y'; apply (ComposeSensitivity_L (ow1 := (VOps_phys (list R -> R) k (o := SOps_fun y))) (ow2 := VOps_phys R k) _ (ring2 y y') (fun _ _ => wres) (fun _ _ => wres_of) (fun _ _ _ _ => wres_bind) (or_intror (fun _ _ => wres_all_fail)) (vrel (at_point (A := R) y') k)); eauto].
Qed.

Lemma c99_rational_elevate : forall (y : list R) (k : option nat) (dim : nat) (r : rspline (adt R) (phys (adt R) k)) (fr : list R -> rspline R (phys R k)),
  tracks_rspline (tracks y) (tracks_phys y k) r fr ->
  carries (tracks_rspline (tracks y) (tracks_phys y k)) (AD_R_OrderElevate (length y) r dim)
    (fun y' => R_OrderElevate (fr y') dim).
Proof.
  intros. 
  match goal with H : tracks_rspline (tracks y) (tracks_phys y k) r fr |- _ => destruct (rep_in _ _ _ (rep_rspline (rep_phys y k) (rep_scalar y)) _ _ H) as (Fr & Pr & Qr); clear H end.
  unfold AD_R_OrderElevate. eapply carries_of; [exact (rep_rspline (rep_phys y k) (rep_scalar y))|apply (R_OrderElevate_rel _ (ring1 y) _ (mod1 y k)); eauto|intros y'; apply (R_OrderElevate_rel _ (ring2 y y') _ (mod2 y y' k)); eauto].
Qed.

Lemma c99_rational_derivative : forall (y : list R) (k : option nat) (MAXB fuel : nat) (orders : list nat) (r : rspline (adt R) (phys (adt R) k)) (fr : list R -> rspline R (phys R k)),
  tracks_rspline (tracks y) (tracks_phys y k) r fr ->
  carries (tracks_rspline (tracks y) (tracks_phys y k)) (AD_R_DerivativeWRT (length y) MAXB fuel r orders)
    (fun y' => R_DerivativeWRT MAXB fuel (fr y') orders).
Proof.
  intros. 
  match goal with H : tracks_rspline (tracks y) (tracks_phys y k) r fr |- _ => destruct (rep_in _ _ _ (rep_rspline (rep_phys y k) (rep_scalar y)) _ _ H) as (Fr & Pr & Qr); clear H end.
  unfold AD_R_DerivativeWRT. eapply carries_of; [exact (rep_rspline (rep_phys y k) (rep_scalar y))|apply (R_DerivativeWRT_rel _ (ring1 y) _ (mod1 y k)); eauto|intros y'; apply (R_DerivativeWRT_rel _ (ring2 y y') _ (mod2 y y' k)); eauto].
Qed.

Lemma c99_rational_affine : forall (y : list R) (k : option nat) (r : rspline (adt R) (phys (adt R) k)) (fr : list R -> rspline R (phys R k)) (c : adt R) (fc : list R -> R) (p : phys (adt R) k) (fp : list R -> phys R k),
  tracks_rspline (tracks y) (tracks_phys y k) r fr ->
  tracks y c fc ->
  tracks_phys y k p fp ->
  carries (tracks_rspline (tracks y) (tracks_phys y k)) (AD_R_scale_assign (length y) r c)
    (fun y' => R_scale_assign (fr y') (fc y')) /\
  carries (tracks_rspline (tracks y) (tracks_phys y k)) (AD_R_shift_assign (length y) r p)
    (fun y' => R_shift_assign (fr y') (fp y')) /\
  carries (tracks_rspline (tracks y) (tracks_phys y k)) (AD_R_unshift_assign (length y) r p)
    (fun y' => R_unshift_assign (fr y') (fp y')) /\
  carries (tracks_rspline (tracks y) (tracks_phys y k)) (AD_R_neg (length y) r)
    (fun y' => R_neg (fr y')).
Proof.
  intros. 
  match goal with H : tracks_rspline (tracks y) (tracks_phys y k) r fr |- _ => destruct (rep_in _ _ _ (rep_rspline (rep_phys y k) (rep_scalar y)) _ _ H) as (Fr & Pr & Qr); clear H end.
  match goal with H : tracks y c fc |- _ => destruct (rep_in _ _ _ (rep_scalar y) _ _ H) as (Fc & Pc & Qc); clear H end.
  match goal with H : tracks_phys y k p fp |- _ => destruct (rep_in _ _ _ (rep_phys y k) _ _ H) as (Fp & Pp & Qp); clear H end.
  repeat match goal with |- _ /\ _ => split end.
  - unfold AD_R_scale_assign. eapply carries_of; [exact (rep_rspline (rep_phys y k) (rep_scalar y))|apply (R_scale_assign_rel _ _ (mod1 y k)); eauto|intros y'; apply (R_scale_assign_rel _ _ (mod2 y y' k)); eauto].
  - unfold AD_R_shift_assign. eapply carries_of; [exact (rep_rspline (rep_phys y k) (rep_scalar y))|apply (R_shift_assign_rel _ _ (mod1 y k)); eauto|intros y'; apply (R_shift_assign_rel _ _ (mod2 y y' k)); eauto].
  - unfold AD_R_unshift_assign. eapply carries_of; [exact (rep_rspline (rep_phys y k) (rep_scalar y))|apply (R_unshift_assign_rel _ _ (mod1 y k)); eauto|intros y'; apply (R_unshift_assign_rel _ _ (mod2 y y' k)); eauto].
  - unfold AD_R_neg. eapply carries_of; [exact (rep_rspline (rep_phys y k) (rep_scalar y))|apply (R_neg_rel _ _ (mod1 y k)); eauto|intros y'; apply (R_neg_rel _ _ (mod2 y y' k)); eauto].
Qed.

Lemma c99_rational_products : forall (y : list R) (k : option nat) (MAXB : nat) (r : rspline (adt R) (phys (adt R) k)) (fr : list R -> rspline R (phys R k)) (q : rspline (adt R) (adt R)) (fq : list R -> rspline R R),
  tracks_rspline (tracks y) (tracks_phys y k) r fr ->
  tracks_rspline (tracks y) (tracks y) q fq ->
  carries (tracks_rspline (tracks y) (tracks_phys y k)) (AD_R_mul_vs (length y) MAXB r q)
    (fun y' => R_mul MAXB (fun p c => vscale c p) (fr y') (fq y')) /\
  carries (tracks_rspline (tracks y) (tracks_phys y k)) (AD_R_mul_sv (length y) MAXB q r)
    (fun y' => R_mul MAXB (fun c p => vscale c p) (fq y') (fr y')).
Proof.
  intros. 
  match goal with H : tracks_rspline (tracks y) (tracks_phys y k) r fr |- _ => destruct (rep_in _ _ _ (rep_rspline (rep_phys y k) (rep_scalar y)) _ _ H) as (Fr & Pr & Qr); clear H end.
  match goal with H : tracks_rspline (tracks y) (tracks y) q fq |- _ => destruct (rep_in _ _ _ (rep_rspline (rep_scalar y) (rep_scalar y)) _ _ H) as (Fq & Pq & Qq); clear H end.
  repeat match goal with |- _ /\ _ => split end.
  - unfold AD_R_mul_vs. eapply carries_of; [exact (rep_rspline (rep_phys y k) (rep_scalar y))|apply (R_mul_rel _ (ring1 y) MAXB (vrel (tracks y) k) (tracks y) (vrel (tracks y) k) (mod1 y k)); eauto; intros; apply (rm_scale _ _ (rm'_mod _ _ (mod1 y k))); eauto|intros y'; apply (R_mul_rel _ (ring2 y y') MAXB (vrel (at_point (A := R) y') k) (at_point (A := R) y') (vrel (at_point (A := R) y') k) (mod2 y y' k)); eauto; intros; apply (rm_scale _ _ (rm'_mod _ _ (mod2 y y' k))); eauto].
  - unfold AD_R_mul_sv. eapply carries_of; [exact (rep_rspline (rep_phys y k) (rep_scalar y))|apply (R_mul_rel _ (ring1 y) MAXB (tracks y) (vrel (tracks y) k) (vrel (tracks y) k) (mod1 y k)); eauto; intros; apply (rm_scale _ _ (rm'_mod _ _ (mod1 y k))); eauto|intros y'; apply (R_mul_rel _ (ring2 y y') MAXB (at_point (A := R) y') (vrel (at_point (A := R) y') k) (vrel (at_point (A := R) y') k) (mod2 y y' k)); eauto; intros; apply (rm_scale _ _ (rm'_mod _ _ (mod2 y y' k))); eauto].
Qed.

Lemma c99_rational_dot : forall (y : list R) (d MAXB : nat) (r : rspline (adt R) (point (adt R) d)) (fr : list R -> rspline R (point R d)) (q : rspline (adt R) (point (adt R) d)) (fq : list R -> rspline R (point R d)),
  tracks_rspline (tracks y) (tracks_point y d) r fr ->
  tracks_rspline (tracks y) (tracks_point y d) q fq ->
  carries (tracks_rspline (tracks y) (tracks y)) (AD_R_mul_dot (length y) MAXB r q)
    (fun y' => R_mul MAXB (pdot d) (fr y') (fq y')).
Proof.
  intros. 
  match goal with H : tracks_rspline (tracks y) (tracks_point y d) r fr |- _ => destruct (rep_in _ _ _ (rep_rspline (rep_point y d) (rep_scalar y)) _ _ H) as (Fr & Pr & Qr); clear H end.
  match goal with H : tracks_rspline (tracks y) (tracks_point y d) q fq |- _ => destruct (rep_in _ _ _ (rep_rspline (rep_point y d) (rep_scalar y)) _ _ H) as (Fq & Pq & Qq); clear H end.
  unfold AD_R_mul_dot. eapply carries_of; [exact (rep_rspline (rep_scalar y) (rep_scalar y))|apply (R_mul_rel _ (ring1 y) MAXB (prel (tracks y) d) (prel (tracks y) d) (tracks y) (rel_mod_scalar _ (ring1 y)) (pdot (o := SOps_AD (length y)) d) (pdot (o := SOps_fun y) d)); eauto; intros; apply pdot_rel; eauto; apply (ring1 y)|intros y'; apply (R_mul_rel _ (ring2 y y') MAXB (prel (at_point (A := R) y') d) (prel (at_point (A := R) y') d) (at_point (A := R) y') (rel_mod_scalar _ (ring2 y y')) (pdot (o := SOps_fun y) d) (pdot (o := _) d)); eauto; intros; apply pdot_rel; eauto; apply (ring2 y y')].
Qed.

Lemma c99_rational_evaluate : forall (y : list R) (k : option nat) (MAXB : nat) (index orders : list nat) (r : rspline (adt R) (phys (adt R) k)) (fr : list R -> rspline R (phys R k)) (xs : list (adt R)) (fxs : list R -> list R),
  tracks_rspline (tracks y) (tracks_phys y k) r fr ->
  tracks_list (tracks y) xs fxs ->
  carries_at y (tracks_phys y k) (AD_R_ControlPoint (length y) r index)
    (fun y' => R_ControlPoint (fr y') index) /\
  carries_at y (tracks_phys y k) (AD_R_Evaluate (length y) r xs)
    (fun y' => R_Evaluate (fr y') (fxs y')) /\
  carries_at y (tracks_phys y k) (AD_R_EvaluateDerivative (length y) MAXB r xs orders)
    (fun y' => R_EvaluateDerivative MAXB (fr y') (fxs y') orders).
Proof.
  intros. 
  match goal with H : tracks_rspline (tracks y) (tracks_phys y k) r fr |- _ => destruct (rep_in _ _ _ (rep_rspline (rep_phys y k) (rep_scalar y)) _ _ H) as (Fr & Pr & Qr); clear H end.
  match goal with H : tracks_list (tracks y) xs fxs |- _ => destruct (rep_in _ _ _ (rep_list (rep_scalar y)) _ _ H) as (Fxs & Pxs & Qxs); clear H end.
  repeat match goal with |- _ /\ _ => split end.
  - unfold AD_R_ControlPoint. eapply carries_at_of; [exact (rep_phys y k)|apply (R_ControlPoint_rel _ (ring1 y) _ (mod1 y k) (fun _ _ => rres) (fun _ _ _ _ _ H => H) (fun _ _ _ _ => rres_bind) (divS_AD y) ); eauto|apply (R_ControlPoint_rel _ (ring2 y y) _ (mod2 y y k) (fun _ _ => rres) (fun _ _ _ _ _ H => H) (fun _ _ _ _ => rres_bind) (div2 y) ); eauto|intros y'; apply (R_ControlPoint_rel _ (ring2 y y') _ (mod2 y y' k) (fun _ _ => wres) (fun _ _ => wres_of) (fun _ _ _ _ => wres_bind) (div3 y y') ); eauto].
  - unfold AD_R_Evaluate. eapply carries_at_of; [exact (rep_phys y k)|apply (R_Evaluate_rel _ (ring1 y) _ (mod1 y k) (fun _ _ => rres) (fun _ _ _ _ _ H => H) (fun _ _ _ _ => rres_bind) (divS_AD y) ); eauto|apply (R_Evaluate_rel _ (ring2 y y) _ (mod2 y y k) (fun _ _ => rres) (fun _ _ _ _ _ H => H) (fun _ _ _ _ => rres_bind) (div2 y) ); eauto|intros y'; apply (R_Evaluate_rel _ (ring2 y y') _ (mod2 y y' k) (fun _ _ => wres) (fun _ _ => wres_of) (fun _ _ _ _ => wres_bind) (div3 y y') ); eauto].
  - unfold AD_R_EvaluateDerivative. eapply carries_at_of; [exact (rep_phys y k)|apply (R_EvaluateDerivative_rel _ (ring1 y) _ (mod1 y k) (fun _ _ => rres) (fun _ _ _ _ _ H => H) (fun _ _ _ _ => rres_bind) (divS_AD y) ); eauto|apply (R_EvaluateDerivative_rel _ (ring2 y y) _ (mod2 y y k) (fun _ _ => rres) (fun _ _ _ _ _ H => H) (fun _ _ _ _ => rres_bind) (div2 y) ); eauto|intros y'; apply (R_EvaluateDerivative_rel _ (ring2 y y') _ (mod2 y y' k) (fun _ _ => wres) (fun _ _ => wres_of) (fun _ _ _ _ => wres_bind) (div3 y y') ); eauto].
Qed.

Lemma c99_rational_basis : forall (y : list R) (k : option nat) (MAXB : nat) (orders : list nat) (r : rspline (adt R) (phys (adt R) k)) (fr : list R -> rspline R (phys R k)) (xs : list (adt R)) (fxs : list R -> list R),
  tracks_rspline (tracks y) (tracks_phys y k) r fr ->
  tracks_list (tracks y) xs fxs ->
  carries_at y (tracks_list (tracks y)) (AD_R_BasisFunctions (length y) MAXB r xs)
    (fun y' => R_BasisFunctions MAXB (fr y') (fxs y')) /\
  carries_at y (tracks_list (tracks y)) (AD_R_BasisFunctionsDerivatives (length y) MAXB r xs orders)
    (fun y' => R_BasisFunctionsDerivatives MAXB (fr y') (fxs y') orders).
Proof.
  intros. 
  match goal with H : tracks_rspline (tracks y) (tracks_phys y k) r fr |- _ => destruct (rep_in _ _ _ (rep_rspline (rep_phys y k) (rep_scalar y)) _ _ H) as (Fr & Pr & Qr); clear H end.
  match goal with H : tracks_list (tracks y) xs fxs |- _ => destruct (rep_in _ _ _ (rep_list (rep_scalar y)) _ _ H) as (Fxs & Pxs & Qxs); clear H end.
  repeat match goal with |- _ /\ _ => split end.
  - unfold AD_R_BasisFunctions. eapply carries_at_of; [exact (rep_list (rep_scalar y))|apply (R_BasisFunctions_rel _ (ring1 y) (vrel (tracks y) k) (fun _ _ => rres) (fun _ _ _ _ _ H => H) (fun _ _ _ _ => rres_bind) (divS_AD y)); eauto|apply (R_BasisFunctions_rel _ (ring2 y y) (vrel (at_point (A := R) y) k) (fun _ _ => rres) (fun _ _ _ _ _ H => H) (fun _ _ _ _ => rres_bind) (div2 y)); eauto|intros y'; apply (R_BasisFunctions_rel _ (ring2 y y') (vrel (at_point (A := R) y') k) (fun _ _ => wres) (fun _ _ => wres_of) (fun _ _ _ _ => wres_bind) (div3 y y')); eauto].
  - unfold AD_R_BasisFunctionsDerivatives. eapply carries_at_of; [exact (rep_list (rep_scalar y))|apply (R_BasisFunctionsDerivatives_rel _ (ring1 y) (vrel (tracks y) k) (fun _ _ => rres) (fun _ _ _ _ _ H => H) (fun _ _ _ _ => rres_bind) (divS_AD y)); eauto|apply (R_BasisFunctionsDerivatives_rel _ (ring2 y y) (vrel (at_point (A := R) y) k) (fun _ _ => rres) (fun _ _ _ _ _ H => H) (fun _ _ _ _ => rres_bind) (div2 y)); eauto|intros y'; apply (R_BasisFunctionsDerivatives_rel _ (ring2 y y') (vrel (at_point (A := R) y') k) (fun _ _ => wres) (fun _ _ => wres_of) (fun _ _ _ _ => wres_bind) (div3 y y')); eauto].
Qed.

Lemma c99_rational_split : forall (y : list R) (k : option nat) (dim : nat) (r : rspline (adt R) (phys (adt R) k)) (fr : list R -> rspline R (phys R k)) (x : adt R) (fx : list R -> R),
  tracks_rspline (tracks y) (tracks_phys y k) r fr ->
  tracks y x fx ->
  carries_at y (tracks_list (tracks_rspline (tracks y) (tracks_phys y k))) (AD_R_SplitAtPosition (length y) r x dim)
    (fun y' => R_SplitAtPosition (fr y') (fx y') dim).
Proof.
  intros. 
  match goal with H : tracks_rspline (tracks y) (tracks_phys y k) r fr |- _ => destruct (rep_in _ _ _ (rep_rspline (rep_phys y k) (rep_scalar y)) _ _ H) as (Fr & Pr & Qr); clear H end.
  match goal with H : tracks y x fx |- _ => destruct (rep_in _ _ _ (rep_scalar y) _ _ H) as (Fx & Px & Qx); clear H end.
  unfold AD_R_SplitAtPosition. eapply carries_at_of; [exact (rep_list (rep_rspline (rep_phys y k) (rep_scalar y)))|apply (R_Split_L _ (ring1 y) _ (mod1 y k) (fun _ _ => rres) (fun _ _ _ _ _ H => H) (or_introl (lt1 y))); eauto|apply (R_Split_L _ (ring2 y y) _ (mod2 y y k) (fun _ _ => rres) (fun _ _ _ _ _ H => H) (or_introl (lt2 y))); eauto|intros y'; apply (R_Split_L _ (ring2 y y') _ (mod2 y y' k) (fun _ _ => wres) (fun _ _ => wres_of) (or_intror (fun _ _ => wres_all_fail))); eauto].
Qed.

Lemma c99_rational_split_many : forall (y : list R) (k : option nat) (dim : nat) (r : rspline (adt R) (phys (adt R) k)) (fr : list R -> rspline R (phys R k)) (xs : list (adt R)) (fxs : list R -> list R),
  tracks_rspline (tracks y) (tracks_phys y k) r fr ->
  tracks_list (tracks y) xs fxs ->
  carries_at y (tracks_list (tracks_rspline (tracks y) (tracks_phys y k))) (AD_R_SplitAtPositions (length y) r xs dim)
    (fun y' => R_SplitAtPositions (fr y') (fxs y') dim).
Proof.
  intros. 
  match goal with H : tracks_rspline (tracks y) (tracks_phys y k) r fr |- _ => destruct (rep_in _ _ _ (rep_rspline (rep_phys y k) (rep_scalar y)) _ _ H) as (Fr & Pr & Qr); clear H end.
  match goal with H : tracks_list (tracks y) xs fxs |- _ => destruct (rep_in _ _ _ (rep_list (rep_scalar y)) _ _ H) as (Fxs & Pxs & Qxs); clear H end.
  unfold AD_R_SplitAtPositions. eapply carries_at_of; [exact (rep_list (rep_rspline (rep_phys y k) (rep_scalar y)))|apply (R_SplitAtPositions_rel _ (ring1 y) _ (mod1 y k) (fun _ _ => rres) (fun _ _ _ _ _ H => H) (fun _ _ _ _ => rres_bind) (divS_AD y) (or_introl (lt1 y))); eauto|apply (R_SplitAtPositions_rel _ (ring2 y y) _ (mod2 y y k) (fun _ _ => rres) (fun _ _ _ _ _ H => H) (fun _ _ _ _ => rres_bind) (div2 y) (or_introl (lt2 y))); eauto|intros y'; apply (R_SplitAtPositions_rel _ (ring2 y y') _ (mod2 y y' k) (fun _ _ => wres) (fun _ _ => wres_of) (fun _ _ _ _ => wres_bind) (div3 y y') (or_intror (fun _ _ => wres_all_fail))); eauto].
Qed.

Lemma c99_compose_rational : forall (y : list R) (k : option nat) (d MAXB fuel : nat) (s : spline (phys (adt R) k)) (fs : list R -> spline (phys R k)) (r : rspline (adt R) (phys (adt R) k)) (fr : list R -> rspline R (phys R k)) (p : spline (point (adt R) d)) (fp : list R -> spline (point R d)) (t : rspline (adt R) (point (adt R) d)) (ft : list R -> rspline R (point R d)),
  tracks_spline (tracks_phys y k) s fs ->
  tracks_rspline (tracks y) (tracks_phys y k) r fr ->
  tracks_spline (tracks_point y d) p fp ->
  tracks_rspline (tracks y) (tracks_point y d) t ft ->
  carries_at y (tracks_rspline (tracks y) (tracks_phys y k)) (AD_Compose_PR (length y) MAXB fuel s t)
    (fun y' => Compose_PR MAXB fuel (fs y') (ft y')) /\
  carries_at y (tracks_rspline (tracks y) (tracks_phys y k)) (AD_Compose_RP (length y) MAXB r p)
    (fun y' => Compose_RP MAXB (fr y') (fp y')) /\
  carries (tracks_rspline (tracks y) (tracks_phys y k)) (AD_Compose_RR (length y) MAXB fuel r t)
    (fun y' => Compose_RR MAXB fuel (fr y') (ft y')).
Proof.
  intros. 
  match goal with H : tracks_spline (tracks_phys y k) s fs |- _ => destruct (rep_in _ _ _ (rep_spline (rep_phys y k)) _ _ H) as (Fs & Ps & Qs); clear H end.
  match goal with H : tracks_rspline (tracks y) (tracks_phys y k) r fr |- _ => destruct (rep_in _ _ _ (rep_rspline (rep_phys y k) (rep_scalar y)) _ _ H) as (Fr & Pr & Qr); clear H end.
  match goal with H : tracks_spline (tracks_point y d) p fp |- _ => destruct (rep_in _ _ _ (rep_spline (rep_point y d)) _ _ H) as (Fp & Pp & Qp); clear H end.
  match goal with H : tracks_rspline (tracks y) (tracks_point y d) t ft |- _ => destruct (rep_in _ _ _ (rep_rspline (rep_point y d) (rep_scalar y)) _ _ H) as (Ft & Pt & Qt); clear H end.
  repeat match goal with |- _ /\ _ => split end.
  - unfold AD_Compose_PR. eapply carries_at_of; [exact (rep_rspline (rep_phys y k) (rep_scalar y))|apply (Compose_PR_L _ (ring1 y) _ (mod1 y k) (fun _ _ => rres) (fun _ _ _ _ _ H => H) (fun _ _ _ _ => rres_bind) (divS_AD y) (or_introl (lt1 y))); eauto|apply (Compose_PR_L _ (ring2 y y) _ (mod2 y y k) (fun _ _ => rres) (fun _ _ _ _ _ H => H) (fun _ _ _ _ => rres_bind) (div2 y) (or_introl (lt2 y))); eauto|intros y'; apply (Compose_PR_L _ (ring2 y y') _ (mod2 y y' k) (fun _ _ => wres) (fun _ _ => wres_of) (fun _ _ _ _ => wres_bind) (div3 y y') (or_intror (fun _ _ => wres_all_fail))); eauto].
  - unfold AD_Compose_RP. eapply carries_at_of; [exact (rep_rspline (rep_phys y k) (rep_scalar y))|apply (Compose_RP_L _ (ring1 y) _ (mod1 y k) (fun _ _ => rres) (fun _ _ _ _ _ H => H) (fun _ _ _ _ => rres_bind) (or_introl (lt1 y))); eauto|apply (Compose_RP_L _ (ring2 y y) _ (mod2 y y k) (fun _ _ => rres) (fun _ _ _ _ _ H => H) (fun _ _ _ _ => rres_bind) (or_introl (lt2 y))); eauto|intros y'; apply (Compose_RP_L _ (ring2 y y') _ (mod2 y y' k) (fun _ _ => wres) (fun _ _ => wres_of) (fun _ _ _ _ => wres_bind) (or_intror (fun _ _ => wres_all_fail))); eauto].
  - unfold AD_Compose_RR. eapply carries_of; [exact (rep_rspline (rep_phys y k) (rep_scalar y))|apply (Compose_RR_rel _ (ring1 y) _ (mod1 y k)); eauto; try apply Pt; try apply Qt|intros y'; apply (Compose_RR_rel _ (ring2 y y') _ (mod2 y y' k)); eauto; try apply Pt; try apply Qt].
Qed.

Lemma c99_compose_rational_sensitivity : forall (y : list R) (k : option nat) (d MAXB fuel : nat) (s : spline (phys (adt R) k)) (fs : list R -> spline (phys R k)) (r : rspline (adt R) (phys (adt R) k)) (fr : list R -> rspline R (phys R k)) (p : spline (point (adt R) d)) (fp : list R -> spline (point R d)) (t : rspline (adt R) (point (adt R) d)) (ft : list R -> rspline R (point R d)),
  tracks_spline (tracks_phys y k) s fs ->
  tracks_rspline (tracks y) (tracks_phys y k) r fr ->
  tracks_spline (tracks_point y d) p fp ->
  tracks_rspline (tracks y) (tracks_point y d) t ft ->
  carries_at y (tracks_list (tracks_rspline (tracks y) (tracks y))) (AD_ComposeSensitivity_PR (length y) MAXB fuel s t)
    (fun y' => ComposeSensitivity_PR MAXB fuel (fs y') (ft y')) /\
  carries_at y (tracks_list (tracks_rspline (tracks y) (tracks y))) (AD_ComposeSensitivity_RP (length y) MAXB r p)
    (fun y' => ComposeSensitivity_RP MAXB (fr y') (fp y')) /\
  carries (tracks_list (tracks_rspline (tracks y) (tracks y))) (AD_ComposeSensitivity_RR (length y) MAXB fuel r t)
    (fun y' => ComposeSensitivity_RR MAXB fuel (fr y') (ft y')).
Proof.
  intros. 
  match goal with H : tracks_spline (tracks_phys y k) s fs |- _ => destruct (rep_in _ _ _ (rep_spline (rep_phys y k)) _ _ H) as (Fs & Ps & Qs); clear H end.
  match goal with H : tracks_rspline (tracks y) (tracks_phys y k) r fr |- _ => destruct (rep_in _ _ _ (rep_rspline (rep_phys y k) (rep_scalar y)) _ _ H) as (Fr & Pr & Qr); clear H end.
  match goal with H : tracks_spline (tracks_point y d) p fp |- _ => destruct (rep_in _ _ _ (rep_spline (rep_point y d)) _ _ H) as (Fp & Pp & Qp); clear H end.
  match goal with H : tracks_rspline (tracks y) (tracks_point y d) t ft |- _ => destruct (rep_in _ _ _ (rep_rspline (rep_point y d) (rep_scalar y)) _ _ H) as (Ft & Pt & Qt); clear H end.
  repeat match goal with |- _ /\ _ => split end.
  - unfold AD_ComposeSensitivity_PR. eapply carries_at_of; [exact (rep_list (rep_rspline (rep_scalar y) (rep_scalar y)))|apply (ComposeSensitivity_PR_L _ (ring1 y) _ (mod1 y k) (fun _ _ => rres) (fun _ _ _ _ _ H => H) (fun _ _ _ _ => rres_bind) (divS_AD y) (or_introl (lt1 y))); eauto|apply (ComposeSensitivity_PR_L _ (ring2 y y) _ (mod2 y y k) (fun _ _ => rres) (fun _ _ _ _ _ H => H) (fun _ _ _ _ => rres_bind) (div2 y) (or_introl (lt2 y))); eauto|intros y'; apply (ComposeSensitivity_PR_L _ (ring2 y y') _ (mod2 y y' k) (fun _ _ => wres) (fun _ _ => wres_of) (fun _ _ _ _ => wres_bind) (div3 y y') (or_intror (fun _ _ => wres_all_fail))); eauto].
  - unfold AD_ComposeSensitivity_RP. eapply carries_at_of; [exact (rep_list (rep_rspline (rep_scalar y) (rep_scalar y)))|apply (ComposeSensitivity_RP_L _ (ring1 y) _ (mod1 y k) (fun _ _ => rres) (fun _ _ _ _ _ H => H) (fun _ _ _ _ => rres_bind) (or_introl (lt1 y))); eauto|apply (ComposeSensitivity_RP_L _ (ring2 y y) _ (mod2 y y k) (fun _ _ => rres) (fun _ _ _ _ _ H => H) (fun _ _ _ _ => rres_bind) (or_introl (lt2 y))); eauto|intros y'; apply (ComposeSensitivity_RP_L _ (ring2 y y') _ (mod2 y y' k) (fun _ _ => wres) (fun _ _ => wres_of) (fun _ _ _ _ => wres_bind) (or_intror (fun _ _ => wres_all_fail))); eauto].
  - unfold AD_ComposeSensitivity_RR. eapply carries_of; [exact (rep_list (rep_rspline (rep_scalar y) (rep_scalar y)))|apply (ComposeSensitivity_RR_rel (ov1 := VOps_phys (adt R) k (o := SOps_AD (length y))) (ov2 := (VOps_phys (list R -> R) k (o := SOps_fun y))) _ (ring1 y) (vrel (tracks y) k)); eauto; try apply Pt; try apply Qt|intros y'; apply (ComposeSensitivity_RR_rel (ov1 := (VOps_phys (list R -> R) k (o := SOps_fun y))) (ov2 := VOps_phys R k) _ (ring2 y y') (vrel (at_point (A := R) y') k)); eauto; try apply Pt; try apply Qt].
Qed.

Lemma c100_sums_partial : forall (y : list R) (k : option nat) (MAXB fuel : nat) (r : rspline (adt R) (phys (adt R) k)) (fr : list R -> rspline R (phys R k)) (q : rspline (adt R) (phys (adt R) k)) (fq : list R -> rspline R (phys R k)),
  tracks_rspline (tracks y) (tracks_phys y k) r fr ->
  tracks_rspline (tracks y) (tracks_phys y k) q fq ->
  (forall y', spline_eqb (weight_function (fr y')) (weight_function (fq y')) =
     spline_eqb (weight_function (fr y)) (weight_function (fq y))) ->
  carries (tracks_rspline (tracks y) (tracks_phys y k)) (AD_R_add (length y) MAXB fuel r q)
    (fun y' => R_add MAXB fuel (fr y') (fq y')) /\
  carries (tracks_rspline (tracks y) (tracks_phys y k)) (AD_R_add_assign (length y) MAXB fuel r q)
    (fun y' => R_add_assign MAXB fuel (fr y') (fq y')) /\
  carries (tracks_rspline (tracks y) (tracks_phys y k)) (AD_R_sub (length y) MAXB fuel r q)
    (fun y' => R_sub MAXB fuel (fr y') (fq y')) /\
  carries (tracks_rspline (tracks y) (tracks_phys y k)) (AD_R_sub_assign (length y) MAXB fuel r q)
    (fun y' => R_sub_assign MAXB fuel (fr y') (fq y')).
Proof.
  intros y k MAXB fuel r fr q fq Hr0 Hq0 HE.
  match goal with H : tracks_rspline (tracks y) (tracks_phys y k) r fr |- _ => destruct (rep_in _ _ _ (rep_rspline (rep_phys y k) (rep_scalar y)) _ _ H) as (Fr & Pr & Qr); clear H end.
  match goal with H : tracks_rspline (tracks y) (tracks_phys y k) q fq |- _ => destruct (rep_in _ _ _ (rep_rspline (rep_phys y k) (rep_scalar y)) _ _ H) as (Fq & Pq & Qq); clear H end.
  repeat match goal with |- _ /\ _ => split end.
  - unfold AD_R_add. eapply carries_of; [exact (rep_rspline (rep_phys y k) (rep_scalar y))|apply (R_add_rel _ (ring1 y) _ (mod1 y k)); eauto; apply (spline_eqb_rel _ _ _ _ _ (eq1 y)); [apply Pr|apply Pq]|intros y'; apply (R_add_rel _ (ring2 y y') _ (mod2 y y' k)); eauto; rewrite HE; apply (spline_eqb_rel _ _ _ _ _ (eq2 y)); [apply Qr|apply Qq]].
  - unfold AD_R_add_assign. eapply carries_of; [exact (rep_rspline (rep_phys y k) (rep_scalar y))|apply (R_add_assign_rel _ (ring1 y) _ (mod1 y k)); eauto; apply (spline_eqb_rel _ _ _ _ _ (eq1 y)); [apply Pr|apply Pq]|intros y'; apply (R_add_assign_rel _ (ring2 y y') _ (mod2 y y' k)); eauto; rewrite HE; apply (spline_eqb_rel _ _ _ _ _ (eq2 y)); [apply Qr|apply Qq]].
  - unfold AD_R_sub. eapply carries_of; [exact (rep_rspline (rep_phys y k) (rep_scalar y))|apply (R_sub_rel _ (ring1 y) _ (mod1 y k)); eauto; apply (spline_eqb_rel _ _ _ _ _ (eq1 y)); [apply Pr|apply Pq]|intros y'; apply (R_sub_rel _ (ring2 y y') _ (mod2 y y' k)); eauto; rewrite HE; apply (spline_eqb_rel _ _ _ _ _ (eq2 y)); [apply Qr|apply Qq]].
  - unfold AD_R_sub_assign. eapply carries_of; [exact (rep_rspline (rep_phys y k) (rep_scalar y))|apply (R_sub_assign_rel _ (ring1 y) _ (mod1 y k)); eauto; apply (spline_eqb_rel _ _ _ _ _ (eq1 y)); [apply Pr|apply Pq]|intros y'; apply (R_sub_assign_rel _ (ring2 y y') _ (mod2 y y' k)); eauto; rewrite HE; apply (spline_eqb_rel _ _ _ _ _ (eq2 y)); [apply Qr|apply Qq]].
Qed.

(** Splines of degree zero. *)
Definition const_spline {V} (v : V) : spline V := mkSpline [0%nat] 1 [1%nat] [v].
Lemma const_spline_ev (x v : R) : Evaluate (T := R) (const_spline v) [x] = Ok v.
Proof. reflexivity. Qed.
Lemma sum_plain t x : 0 < t ->
  exists p, R_add 2 3 (mkR (const_spline 1) (const_spline t)) (mkR (const_spline 1) (const_spline 1)) = Ok p /\ R_Evaluate p [x] = Ok (1 / t + 1).
Proof.
  intros Ht.
  destruct (c40_add_sub R R _ _ _ _ 2 3 (mkR (const_spline 1) (const_spline t)) (mkR (const_spline 1) (const_spline 1))) as ((c & E & _ & _ & HV) & _); simpl; auto; try lia.
  1,2: repeat split; simpl; auto; discriminate.
  exists c. split; auto.
  assert (D : forall w, w <> 0 -> R_Evaluate (mkR (const_spline 1) (const_spline w)) [x] = Ok (1 / w)).
  { intros w Hw. unfold R_Evaluate. cbn [weighted_spline weight_function]. rewrite !const_spline_ev. cbn [bind].
    unfold vdiv, divS. cbn. change R0 with 0; change R1 with 1. destruct (Req_EM_T w 0) as [Z|Z]; [contradiction|]. cbn. apply (f_equal (@Ok R)). field. auto. }
  destruct (HV [x]) as (a & b & E1 & E2 & E3).
  1,2: split; [reflexivity|]; unfold value_at, bezier; cbn; lra.
  rewrite D in E1 by lra. rewrite D in E2 by lra. injection E1 as <-. injection E2 as <-. rewrite E3. cbn. apply (f_equal (@Ok R)). field. lra.
Qed.
Lemma c100_sums_refuted : exists (r q s : rspline (adt R) (adt R)) (fr fq : list R -> rspline R R) (a : adt R),
  tracks_rspline (tracks [1]) (tracks [1]) r fr /\ tracks_rspline (tracks [1]) (tracks [1]) q fq /\
  AD_R_add 1 (k := None) 2 3 r q = Ok s /\ AD_R_Evaluate 1 (k := None) s [AD_constant 1 0] = Ok a /\
  (forall t, 0 < t -> exists p, R_add 2 3 (fr [t]) (fq [t]) = Ok p /\ R_Evaluate p [0] = Ok (1 / t + 1)) /\
  derivable_pt_lim (fun t => 1 / t + 1) 1 (-1) /\ ad_v a = 2 /\ ad_d a = [-2].
Proof.
  assert (K : forall c : R, tracks_spline (tracks [1]) (const_spline (mkADT c [0])) (fun _ => const_spline c)).
  { intros c. split; [repeat split|split; [reflexivity|]]. intros [|[|i]] a z; try discriminate. simpl. intros [= <-]. split; [reflexivity|]. split; [reflexivity|].
    intros [|i] Hi; [|simpl in Hi; lia]. simpl. apply derivable_pt_lim_const. }
  exists (mkR (const_spline (mkADT 1 [0])) (const_spline (mkADT 1 [1]))), (mkR (const_spline (mkADT 1 [0])) (const_spline (mkADT 1 [0]))),
    (mkR (const_spline (mkADT (1 + 1) [0 + 0])) (const_spline (mkADT 1 [1]))),
    (fun y => mkR (const_spline 1) (const_spline (nth 0 y 0))), (fun y => mkR (const_spline 1) (const_spline 1)), (mkADT 2 [-2]).
  split; [|split; [|split; [|split; [|split; [|split; [|split; reflexivity]]]]]].
  - split; simpl; [apply K|]. split; [repeat split|split; [reflexivity|]]. intros [|[|i]] a z; try discriminate. simpl. intros [= <-].
    split; [reflexivity|]. split; [reflexivity|]. intros [|i] Hi; [|simpl in Hi; lia]. simpl. apply derivable_pt_lim_id.
  - split; simpl; apply K.
  - unfold AD_R_add, R_add. cbn [weight_function weighted_spline]. replace (spline_eqb _ _) with true; [reflexivity|].
    cbn. unfold AD_eq, eqb. cbn. destruct (Req_EM_T 1 1); [reflexivity|lra].
  - unfold AD_R_Evaluate. cbn. unfold vdiv, divS. cbn. unfold AD_eq, eqb. cbn. destruct (Req_EM_T 1 0); [lra|]. cbn.
    unfold AD_div, AD_div_assign. cbn. unfold fdiv, is_zero. destruct (Req_EM_T (1 * 1) 0); [lra|]. cbn. destruct (Req_EM_T 1 0); [lra|]. cbn.
    apply (f_equal (@Ok (adt R))), f_equal2; [field|]. apply f_equal2; [field|reflexivity].
  - intros t Ht. simpl. apply sum_plain. auto.
  - replace (-1) with ((0 * 1 - 1 * 1) / (1)² + 0) by (unfold Rsqr; field).
    apply (derivable_pt_lim_plus (fun t => 1 / t) (fun _ => 1)); [|apply derivable_pt_lim_const].
    apply (derivable_pt_lim_div (fun _ => 1) (fun t => t)); [apply derivable_pt_lim_const|apply derivable_pt_lim_id|lra].
Qed.
