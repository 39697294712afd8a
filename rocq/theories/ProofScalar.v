(** Scalar-valued splines behave like splines of one-dimensional points. *)
From Coq Require Import Arith Lia List ZArith NArith Bool Ring Field.
From Verif Require Import Prelude Scalar Spec SpecSpline Sums Coord ModelBasis ModelSpline
  ProofIndex ProofBasis ProofEval ProofElevate ProofUnique ClaimsA ProofArith ProofCube ModelRational SpecRational ProofRational ModelScalar.
Import ListNotations.
Local Open Scope nat_scope.

Definition emb {T} (x : T) : point T 1 := (x, tt).
Definition mapr {A B} (f : A -> B) (m : res A) : res B := bind m (fun x => Ok (f x)).

Lemma mapr_bind {A B C} (f : B -> C) (m : res A) (k : A -> res B) :
  mapr f (bind m k) = bind m (fun a => mapr f (k a)).
Proof. destruct m; reflexivity. Qed.
Lemma bind_mapr {A B C} (f : A -> B) (m : res A) (k : B -> res C) :
  bind (mapr f m) k = bind m (fun a => k (f a)).
Proof. destruct m; reflexivity. Qed.

Lemma for_up_mapr {A B} (e : A -> B) (f : nat -> A -> res A) (g : nat -> B -> res B) n lo a :
  (forall i a, g i (e a) = mapr e (f i a)) -> for_up lo n g (e a) = mapr e (for_up lo n f a).
Proof.
  intros H. revert lo a; induction n; intros lo a; [reflexivity|]. simpl. rewrite H.
  rewrite bind_mapr, mapr_bind. apply bind_ext. intros; apply IHn.
Qed.

Lemma get_map {A B} (e : A -> B) l i : get (map e l) i = mapr e (get l i).
Proof.
  unfold get. destruct (nth_error l i) eqn:E.
  - rewrite (map_nth_error e i l E). reflexivity.
  - apply nth_error_None in E. rewrite (proj2 (nth_error_None _ i)) by (rewrite map_length; lia). reflexivity.
Qed.
Lemma upd_map {A B} (e : A -> B) l i x : upd_list (map e l) i (e x) = map e (upd_list l i x).
Proof. revert i; induction l; intros [|i]; simpl; auto. now rewrite IHl. Qed.
Lemma set_map {A B} (e : A -> B) l i x : set (map e l) i (e x) = mapr (map e) (set l i x).
Proof. unfold set. rewrite map_length, upd_map. destruct (i <? length l); reflexivity. Qed.

Definition lift {T} (s : spline T) : spline (point T 1) :=
  mkSpline (degrees s) (number_of_control_points s) (index_offsets s) (map emb (control_points s)).
Definition rlift {T} (r : rspline T T) : rspline T (point T 1) :=
  mkR (lift (weighted_spline r)) (weight_function r).

Lemma wf_lift {T} (s : spline T) : wf s -> wf (lift s).
Proof. intros (A & B & C & D). repeat split; simpl; auto. now rewrite map_length. Qed.
Lemma rwf_rlift {T} (r : rspline T T) : rwf r -> rwf (rlift r).
Proof. intros (A & B & C). split; [apply wf_lift; auto|]. split; auto. Qed.

Section Lift.
Context {T : Type} {o : SOps T} {F : SField T}.
Add Field Tfield : (@sf_th T o F).

Lemma coord_emb (x : T) : coord 1 (emb x) 0 = x.
Proof. reflexivity. Qed.
Lemma plist_emb (x : T) : plist 1 (emb x) = [x].
Proof. reflexivity. Qed.
Lemma point1_eta (p : point T 1) : p = emb (coord 1 p 0).
Proof. destruct p as (x & []). reflexivity. Qed.
Lemma plist1 (p : point T 1) : plist 1 p = [coord 1 p 0].
Proof. destruct p as (x & []). reflexivity. Qed.

Lemma lift_extract (s : spline T) k : wf s -> ExtractDimension (lift s) k = ExtractDimension_s s k.
Proof.
  intros Hw. unfold ExtractDimension_s. destruct k as [|k]; [|reflexivity]. cbn [Nat.eqb negb].
  destruct (ExtractDimension_ok (lift s) 0 (wf_lift s Hw)) as (r & E & Hr & Hd & Hc); [lia|].
  rewrite E. f_equal. destruct Hr as (_ & R1 & R2 & _). destruct Hw as (_ & W1 & W2 & _).
  cbn [lift degrees control_points] in Hd, Hc. rewrite map_map in Hc.
  rewrite (map_ext _ (fun x => x)) in Hc by reflexivity. rewrite map_id in Hc.
  destruct r as [d1 n1 o1 c1], s as [d2 n2 o2 c2]. cbn [degrees number_of_control_points index_offsets control_points] in *.
  subst. reflexivity.
Qed.

Lemma lift_corner pick (s : spline T) : Corner pick (lift s) = mapr emb (Corner_s pick s).
Proof.
  unfold Corner, Corner_s. cbn [lift number_of_control_points control_points].
  destruct (number_of_control_points s =? 0); [reflexivity|].
  rewrite get_map, bind_mapr, mapr_bind. apply bind_ext. intros m _.
  apply for_up_mapr. intros i x. cbn [for_up]. rewrite get_map.
  destruct (get (control_points s) i); reflexivity.
Qed.

Lemma lift_fits (s : spline T) : FitsIntoUnitCube (lift s) = FitsIntoUnitCube_s s.
Proof.
  unfold FitsIntoUnitCube, FitsIntoUnitCube_s, MaximumCorner, MinimumCorner, MaximumCorner_s, MinimumCorner_s.
  rewrite !lift_corner. destruct (Corner_s smax s) as [a| | | | |]; cbn [mapr bind]; auto.
  destruct (Corner_s smin s) as [b| | | | |]; cbn [mapr bind]; auto.
  unfold corners_fit. cbn. destruct (sltb s1 a || sltb b s0)%bool; reflexivity.
Qed.

Lemma lift_transpose (s : spline T) t sc :
  TransposeAndScale (lift s) (emb t) (emb sc) = mapr lift (TransposeAndScale_s s t sc).
Proof.
  unfold TransposeAndScale, TransposeAndScale_s. cbn [lift number_of_control_points control_points].
  rewrite (for_up_mapr (map emb) (fun i c => do x <- get c i; set c i (smul (sadd t x) sc))).
  - rewrite mapr_bind, bind_mapr. apply bind_ext. intros; reflexivity.
  - intros i a. cbn [for_up]. rewrite get_map. rewrite bind_mapr, mapr_bind.
    destruct (get a i) as [x| | | | |]; cbn [bind]; auto.
    cbn [emb pget fst snd bind pset]. change (smul (sadd t x) sc, tt) with (emb (smul (sadd t x) sc)).
    rewrite set_map. destruct (set a i _); reflexivity.
Qed.

Lemma lift_fit (s : spline T) : FitIntoUnitCube (lift s) = mapr lift (FitIntoUnitCube_s s).
Proof.
  unfold FitIntoUnitCube, FitIntoUnitCube_s, MaximumCorner, MinimumCorner, MaximumCorner_s, MinimumCorner_s.
  rewrite !lift_corner. destruct (Corner_s smax s) as [a| | | | |]; cbn [mapr bind]; auto.
  destruct (Corner_s smin s) as [b| | | | |]; cbn [mapr bind]; auto.
  change (vsub (emb a) (emb b)) with (emb (ssub a b)). cbn [for_up emb pget fst snd bind].
  destruct (divS s1 (ssub a b)) as [c| | | | |]; cbn [bind pset]; auto.
  change (c, snd (ssub a b, tt)) with (emb c).
  replace (vopp (b, tt) : point T 1) with (emb (sopp b)); [apply lift_transpose|].
  unfold emb. cbn. f_equal. ring.
Qed.

Lemma lift_value (s : spline T) xs : value_at (lift s) xs = emb (value_at s xs).
Proof.
  rewrite (point1_eta (value_at (lift s) xs)). f_equal. unfold value_at. rewrite coord_bezier.
  cbn [lift degrees control_points]. apply bezier_ext. intros i _.
  change (@v0 T (point T 1) _) with (emb (@v0 T T _)). rewrite map_nth. reflexivity.
Qed.

Lemma lift_evaluate (s : spline T) xs : wf s -> length xs = length (degrees s) ->
  Evaluate (lift s) xs = mapr emb (Evaluate s xs).
Proof.
  intros Hw HX. rewrite (Evaluate_value (lift s)), (Evaluate_value s) by (auto; apply wf_lift; auto).
  rewrite lift_value. reflexivity.
Qed.

Lemma emb_div (x w : T) : vdiv (emb x) w = mapr emb (divS x w).
Proof.
  unfold vdiv, divS. destruct (seqb w s0) eqn:E; [reflexivity|]. apply seqb_neq in E.
  cbn. unfold emb. do 2 f_equal. field; auto.
Qed.
Lemma emb_div' (x w : T) : vdiv (emb x) w = mapr emb (vdiv x w).
Proof.
  unfold vdiv, divS. destruct (seqb w s0) eqn:E; [reflexivity|]. apply seqb_neq in E.
  cbn. unfold emb. do 2 f_equal. field; auto.
Qed.

Lemma lift_control_point (s : spline T) idx : ControlPoint (lift s) idx = mapr emb (ControlPoint s idx).
Proof.
  unfold ControlPoint. change (GlobalToLocalIndex (lift s) idx) with (GlobalToLocalIndex s idx).
  rewrite mapr_bind. apply bind_ext. intros i _. apply get_map.
Qed.

Lemma rlift_control_point (r : rspline T T) idx : R_ControlPoint (rlift r) idx = mapr emb (R_ControlPoint r idx).
Proof.
  unfold R_ControlPoint. cbn [rlift weighted_spline weight_function]. rewrite lift_control_point.
  rewrite bind_mapr, mapr_bind. apply bind_ext. intros x _. rewrite mapr_bind. apply bind_ext.
  intros w _. apply emb_div'.
Qed.

Lemma rlift_evaluate (r : rspline T T) xs : rwf r -> length xs = length (rdegrees r) ->
  R_Evaluate (rlift r) xs = mapr emb (R_Evaluate r xs).
Proof.
  intros (A & _ & _) HX. unfold R_Evaluate. cbn [rlift weighted_spline weight_function].
  rewrite lift_evaluate by auto. rewrite bind_mapr, mapr_bind. apply bind_ext. intros x _.
  rewrite mapr_bind. apply bind_ext. intros w _. apply emb_div'.
Qed.

Lemma rlift_corner pick (r : rspline T T) : R_Corner pick (rlift r) = mapr emb (R_Corner_s pick r).
Proof.
  unfold R_Corner, R_Corner_s. cbn [rlift weighted_spline weight_function lift number_of_control_points control_points].
  destruct (number_of_control_points (weighted_spline r) =? 0); [reflexivity|].
  rewrite mapr_bind. apply bind_ext. intros i0 _.
  change (mkR (lift (weighted_spline r)) (weight_function r)) with (rlift r).
  rewrite rlift_control_point, bind_mapr, mapr_bind. apply bind_ext. intros m _.
  apply for_up_mapr. intros i x. cbn [for_up]. rewrite get_map, bind_mapr, mapr_bind. apply bind_ext. intros p _.
  rewrite mapr_bind. apply bind_ext. intros w _. rewrite emb_div, bind_mapr, mapr_bind. apply bind_ext.
  intros c _. reflexivity.
Qed.

Lemma rlift_fits (r : rspline T T) : R_FitsIntoUnitCube (rlift r) = R_FitsIntoUnitCube_s r.
Proof.
  unfold R_FitsIntoUnitCube, R_FitsIntoUnitCube_s, R_MaximumCorner, R_MinimumCorner, R_MaximumCorner_s, R_MinimumCorner_s.
  rewrite !rlift_corner. destruct (R_Corner_s smax r) as [a| | | | |]; cbn [mapr bind]; auto.
  destruct (R_Corner_s smin r) as [b| | | | |]; cbn [mapr bind]; auto.
  unfold corners_fit. cbn. destruct (sltb s1 a || sltb b s0)%bool; reflexivity.
Qed.

(** Composition only depends on the coordinate splines. *)
Context {V : Type} {ov : VOps T V} (MAXB fuel : nat).

Lemma all_basis_ext {W} (outer : spline W) n ex ex' inv : (forall k, ex k = ex' k) ->
  all_basis_splines (T:=T) MAXB outer n ex inv = all_basis_splines MAXB outer n ex' inv.
Proof.
  intros H. unfold all_basis_splines. apply for_up_ext. intros k x _. apply bind_ext. intros p _. now rewrite H.
Qed.
Lemma numerator_ext {W} {ow : VOps T W} (outer : spline W) degs ex ex' inv : (forall k, ex k = ex' k) ->
  ComposeNumerator (T:=T) MAXB outer degs ex inv = ComposeNumerator MAXB outer degs ex' inv.
Proof.
  intros H. unfold ComposeNumerator. apply bind_ext. intros r _. now rewrite (all_basis_ext outer _ ex ex' inv H).
Qed.
Lemma sensitivity_ext {W} (outer : spline W) degs ex ex' inv : (forall k, ex k = ex' k) ->
  ComposeNumeratorSensitivity (T:=T) MAXB outer degs ex inv = ComposeNumeratorSensitivity MAXB outer degs ex' inv.
Proof.
  intros H. unfold ComposeNumeratorSensitivity. now rewrite (all_basis_ext outer _ ex ex' inv H).
Qed.

Lemma lift_compose {W} {ow : VOps T W} (outer : spline W) (inner : spline T) : wf inner ->
  Compose MAXB outer (lift inner) = Compose_s MAXB outer inner.
Proof.
  intros Hw. unfold Compose, Compose_s. rewrite lift_fits. apply bind_ext. intros b _.
  destruct b; cbn [negb]; auto. apply numerator_ext. intros; apply lift_extract; auto.
Qed.
Lemma lift_sensitivity {W} (outer : spline W) (inner : spline T) : wf inner ->
  ComposeSensitivity MAXB outer (lift inner) = ComposeSensitivity_s MAXB outer inner.
Proof.
  intros Hw. unfold ComposeSensitivity, ComposeSensitivity_s. rewrite lift_fits. apply bind_ext. intros b _.
  destruct b; cbn [negb]; auto. apply sensitivity_ext. intros; apply lift_extract; auto.
Qed.
Lemma lift_numerator_R {W} {ow : VOps T W} (outer : spline W) (inner : rspline T T) : rwf inner ->
  ComposeNumerator_R MAXB fuel outer (rlift inner) = ComposeNumerator_R_s MAXB fuel outer inner.
Proof.
  intros (Hw & _). unfold ComposeNumerator_R, ComposeNumerator_R_s. apply numerator_ext.
  intros k. apply lift_extract; auto.
Qed.
Lemma lift_sensitivity_R {W} (outer : spline W) (inner : rspline T T) : rwf inner ->
  ComposeNumeratorSensitivity_R MAXB fuel outer (rlift inner) = ComposeNumeratorSensitivity_R_s MAXB fuel outer inner.
Proof.
  intros (Hw & _). unfold ComposeNumeratorSensitivity_R, ComposeNumeratorSensitivity_R_s. apply sensitivity_ext.
  intros k. apply lift_extract; auto.
Qed.

Lemma lift_PR (outer : spline V) (inner : rspline T T) : rwf inner ->
  Compose_PR MAXB fuel outer (rlift inner) = Compose_PR_s MAXB fuel outer inner.
Proof.
  intros Hw. unfold Compose_PR, Compose_PR_s. rewrite rlift_fits. apply bind_ext. intros b _.
  destruct b; cbn [negb]; auto. rewrite lift_numerator_R by auto. reflexivity.
Qed.
Lemma lift_sens_PR (outer : spline V) (inner : rspline T T) : rwf inner ->
  ComposeSensitivity_PR MAXB fuel outer (rlift inner) = ComposeSensitivity_PR_s MAXB fuel outer inner.
Proof.
  intros Hw. unfold ComposeSensitivity_PR, ComposeSensitivity_PR_s. rewrite rlift_fits. apply bind_ext. intros b _.
  destruct b; cbn [negb]; auto. rewrite lift_sensitivity_R by auto. reflexivity.
Qed.
Lemma lift_RP (outer : rspline T V) (inner : spline T) : wf inner ->
  Compose_RP MAXB outer (lift inner) = Compose_RP_s MAXB outer inner.
Proof. intros Hw. unfold Compose_RP, Compose_RP_s. rewrite !lift_compose by auto. reflexivity. Qed.
Lemma lift_sens_RP (outer : rspline T V) (inner : spline T) : wf inner ->
  ComposeSensitivity_RP MAXB outer (lift inner) = ComposeSensitivity_RP_s MAXB outer inner.
Proof.
  intros Hw. unfold ComposeSensitivity_RP, ComposeSensitivity_RP_s.
  rewrite lift_sensitivity, lift_compose by auto. reflexivity.
Qed.
Lemma lift_RR (outer : rspline T V) (inner : rspline T T) : rwf inner ->
  Compose_RR MAXB fuel outer (rlift inner) = Compose_RR_s MAXB fuel outer inner.
Proof. intros Hw. unfold Compose_RR, Compose_RR_s. rewrite !lift_numerator_R by auto. reflexivity. Qed.
Lemma lift_sens_RR (outer : rspline T V) (inner : rspline T T) : rwf inner ->
  ComposeSensitivity_RR MAXB fuel outer (rlift inner) = ComposeSensitivity_RR_s MAXB fuel outer inner.
Proof.
  intros Hw. unfold ComposeSensitivity_RR, ComposeSensitivity_RR_s.
  rewrite lift_sensitivity_R, lift_numerator_R by auto. reflexivity.
Qed.
End Lift.
