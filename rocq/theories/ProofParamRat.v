(** Relations and the operations on points, compositions and rational splines. *)
From Coq Require Import Arith Lia List ZArith NArith Bool.
From Verif Require Import Prelude Scalar ModelBasis ModelSpline ModelRational ProofParam ProofParamOps.
Import ListNotations.
Local Open Scope nat_scope.

(** Related if both succeed. *)
Definition wres {A B} (P : A -> B -> Prop) (a : res A) (b : res B) : Prop :=
  match a, b with Ok x, Ok y => P x y | _, _ => True end.
Lemma wres_of {A B} (P : A -> B -> Prop) a b : rres P a b -> wres P a b.
Proof. destruct a, b; simpl; auto. Qed.
Lemma wres_bind {A B C D} (P : A -> B -> Prop) (Q : C -> D -> Prop) m m' k k' :
  wres P m m' -> (forall x y, P x y -> wres Q (k x) (k' y)) -> wres Q (bind m k) (bind m' k').
Proof.
  destruct m, m'; simpl; intros H K; auto; unfold wres; repeat match goal with |- context [match ?x with _ => _ end] => destruct x end; auto.
Qed.

Definition fails {A} (m : res A) : Prop := match m with Ok _ => False | _ => True end.

Section Rel.
Context {T1 T2 : Type} {o1 : SOps T1} {o2 : SOps T2} (RT : T1 -> T2 -> Prop).
Context (HR' : rel_ring' RT).
Let HR := rr'_ring _ HR'.

(** Points: coordinate by coordinate. *)
Fixpoint prel (d : nat) : point T1 d -> point T2 d -> Prop :=
  match d with
  | O => fun _ _ => True
  | S d' => fun p q => RT (fst p) (fst q) /\ prel d' (snd p) (snd q)
  end.
Lemma rel_mod_point d : rel_mod' (ov1 := VOps_point T1 d) (ov2 := VOps_point T2 d) RT (prel d).
Proof.
  split; [split|..]; simpl.
  - induction d; simpl; auto. split; auto. apply (rr_0 _ HR).
  - induction d; simpl; auto. intros a b a' b' (H1 & H2) (H3 & H4). split; auto. apply (rr_add _ HR); auto.
  - induction d; simpl; auto. intros c a c' a' Hc (H1 & H2). split; auto. apply (rr_mul _ HR); auto.
  - induction d; simpl; auto. intros a b a' b' (H1 & H2) (H3 & H4). split; auto. apply (rr_sub _ HR); auto.
  - induction d; simpl; auto. intros a a' (H1 & H2). split; auto. apply (rr_mul _ HR); auto.
    apply (rr'_opp _ HR'), (rr_1 _ HR).
Qed.
Lemma pget_rel d p p' k : prel d p p' -> rres RT (pget d p k) (pget d p' k).
Proof. revert k; induction d; intros k H; simpl; auto. destruct H, k; simpl; auto. Qed.
Lemma pset_rel d p p' k x x' : prel d p p' -> RT x x' -> rres (prel d) (pset d p k x) (pset d p' k x').
Proof.
  revert k; induction d; intros k H Hx; simpl; auto. destruct H, k; simpl; auto.
  eapply rres_bind; [apply IHd; auto|]. intros. simpl. auto.
Qed.

Section Pts.
Context {d : nat}.
Lemma ExtractDimension_rel s s' k : srel (prel d) s s' -> rres (srel RT) (ExtractDimension s k) (ExtractDimension s' k).
Proof.
  intros Hs. unfold ExtractDimension. destruct (d <=? k); [exact I|]. rewrite (sr_deg _ _ _ Hs), (sr_n _ _ _ Hs).
  eapply rres_bind; [apply (Spline_deg_rel RT RT (rel_mod_scalar RT HR'))|]. intros e e' He.
  eapply (rres_bind (Forall2 RT)).
  - apply rres_for_up; [apply He|]. intros i c c' Hc. eapply rres_bind; [apply rres_get, Hs|]. intros p p' Hp.
    eapply rres_bind; [apply pget_rel; exact Hp|]. intros. apply rres_set; auto.
  - intros. simpl. apply srel_with; auto.
Qed.
Lemma TransposeAndScale_rel s s' t t' c c' : srel (prel d) s s' -> prel d t t' -> prel d c c' ->
  rres (srel (prel d)) (TransposeAndScale s t c) (TransposeAndScale s' t' c').
Proof.
  intros Hs Ht Hsc. unfold TransposeAndScale. rewrite (sr_n _ _ _ Hs). eapply (rres_bind (Forall2 (prel d))).
  - apply rres_for_up; [apply Hs|]. intros i u u' Hu. apply rres_for_up; auto. intros j w w' Hw.
    eapply rres_bind; [apply rres_get; exact Hw|]. intros x x' Hx.
    eapply rres_bind; [apply pget_rel; exact Ht|]. intros a a' Ha.
    eapply rres_bind; [apply pget_rel; exact Hx|]. intros b b' Hb.
    eapply rres_bind; [apply pget_rel; exact Hsc|]. intros e e' He.
    eapply rres_bind; [apply pset_rel; [exact Hx|]|].
    + apply (rr_mul _ HR); [apply (rr_add _ HR)|]; eauto.
    + intros. apply rres_set; auto.
  - intros. simpl. apply srel_with; auto.
Qed.

(** Comparisons that agree. *)
Definition rel_lt : Prop := forall a b a' b', RT a a' -> RT b b' -> sltb a b = sltb a' b'.
Lemma smax_rel : rel_lt -> forall a b a' b', RT a a' -> RT b b' -> RT (smax a b) (smax a' b').
Proof. intros L a b a' b' Ha Hb. unfold smax. rewrite (L _ _ _ _ Ha Hb). destruct (sltb a' b'); auto. Qed.
Lemma smin_rel : rel_lt -> forall a b a' b', RT a a' -> RT b b' -> RT (smin a b) (smin a' b').
Proof. intros L a b a' b' Ha Hb. unfold smin. rewrite (L _ _ _ _ Hb Ha). destruct (sltb b' a'); auto. Qed.
Lemma Corner_rel pick pick' s s' : (forall a b a' b', RT a a' -> RT b b' -> RT (pick a b) (pick' a' b')) ->
  srel (prel d) s s' -> rres (prel d) (Corner pick s) (Corner pick' s').
Proof.
  intros Hp Hs. unfold Corner. rewrite (sr_n _ _ _ Hs). destruct (_ =? 0); [exact I|].
  eapply rres_bind; [apply rres_get, Hs|]. intros m m' Hm. apply rres_for_up; auto. intros i u u' Hu.
  apply rres_for_up; auto. intros j w w' Hw. eapply rres_bind; [apply rres_get, Hs|]. intros c c' Hc.
  eapply rres_bind; [apply pget_rel; exact Hw|]. intros a a' Ha.
  eapply rres_bind; [apply pget_rel; exact Hc|]. intros b b' Hb. apply pset_rel; auto.
Qed.
Lemma corners_fit_rel (mx mn : point T1 d) mx' mn' : rel_lt -> prel d mx mx' -> prel d mn mn' ->
  rres eq (corners_fit mx mn) (corners_fit mx' mn').
Proof.
  intros L H1 H2. unfold corners_fit. apply rres_for_up; auto. intros i b b' <-. destruct (negb b); [reflexivity|].
  eapply rres_bind; [apply pget_rel; exact H1|]. intros a a' Ha.
  eapply rres_bind; [apply pget_rel; exact H2|]. intros c c' Hc. simpl.
  rewrite (L _ _ _ _ (rr_1 _ HR) Ha), (L _ _ _ _ Hc (rr_0 _ HR)). reflexivity.
Qed.
Lemma FitsIntoUnitCube_rel (s : spline (point T1 d)) s' : rel_lt -> srel (prel d) s s' ->
  rres eq (FitsIntoUnitCube s) (FitsIntoUnitCube s').
Proof.
  intros L Hs. unfold FitsIntoUnitCube.
  eapply rres_bind; [apply Corner_rel; [apply smax_rel, L|exact Hs]|]. intros.
  eapply rres_bind; [apply Corner_rel; [apply smin_rel, L|exact Hs]|]. intros. now apply corners_fit_rel.
Qed.
End Pts.

Lemma bernstein_basis_splines_rel MAXB dim p c c' ic ic' : srel RT c c' -> srel RT ic ic' ->
  rres (Forall2 (srel RT)) (bernstein_basis_splines MAXB dim p c ic) (bernstein_basis_splines MAXB dim p c' ic').
Proof.
  intros Hc Hi. unfold bernstein_basis_splines. cbv zeta.
  eapply rres_bind; [apply (const_one_rel RT HR')|]. intros e e' He.
  set (PP := fun (a : list (spline T1) * spline T1) (b : list (spline T2) * spline T2) => Forall2 (srel RT) (fst a) (fst b) /\ srel RT (snd a) (snd b)).
  eapply rres_bind; [apply rres_set; [apply F2_repeat|exact He]|].
  { split; simpl; auto. }
  intros b b' Hb. eapply (rres_bind PP).
  - apply rres_for_up; [split; auto|]. intros i (u & m) (u' & m') (H1 & H2). simpl in H1, H2.
    eapply rres_bind; [apply (spline_mul_ss_rel RT HR'); eauto|]. intros m1 m1' Hm.
    eapply rres_bind; [apply rres_set; [exact H1|exact Hm]|]. intros. split; auto.
  - intros (u & m) (u' & m') (H1 & H2). simpl in H1, H2. eapply (rres_bind PP).
    + apply rres_for_up; [split; auto|]. clear - HR' Hi. intros i (u & m) (u' & m') (H1 & H2). simpl in H1, H2.
      eapply rres_bind; [apply (spline_mul_ss_rel RT HR'); eauto|]. intros m1 m1' Hm.
      eapply rres_bind; [apply rres_get; exact H1|]. intros x x' Hx.
      eapply rres_bind; [apply (spline_mul_ss_rel RT HR'); eauto|]. intros x1 x1' Hx1.
      eapply rres_bind; [apply rres_set; [exact H1|exact Hx1]|]. intros. split; auto.
    + intros (w & n) (w' & n') (K1 & K2). simpl in K1, K2. apply rres_for_up; auto. intros i t t' Ht.
      eapply rres_bind; [apply rres_get; exact Ht|]. intros x x' Hx. rsame.
      eapply rres_bind; [apply (scale_assign_rel RT RT (rel_mod_scalar RT HR')); [exact Hx|apply (rr_ofN _ HR)]|]. intros. apply rres_set; auto.
Qed.

Section Compose.
Context {V1 V2 : Type} {ov1 : VOps T1 V1} {ov2 : VOps T2 V2} (RV : V1 -> V2 -> Prop) (HM' : rel_mod' RT RV).
Let HM := rm'_mod _ _ HM'.
Context (ex : nat -> res (spline T1)) (ex' : nat -> res (spline T2)) (inv : spline T1 -> res (spline T1)) (inv' : spline T2 -> res (spline T2)).
Context (Hex : forall k, rres (srel RT) (ex k) (ex' k)) (Hinv : forall c c', srel RT c c' -> rres (srel RT) (inv c) (inv' c')).

Lemma all_basis_splines_rel MAXB (s : spline V1) (s' : spline V2) dim : degrees s = degrees s' ->
  rres (Forall2 (Forall2 (srel RT))) (all_basis_splines MAXB s dim ex inv) (all_basis_splines MAXB s' dim ex' inv').
Proof.
  intros Hd. unfold all_basis_splines. rewrite Hd. apply rres_for_up; [apply F2_repeat; auto|]. intros k b b' Hb.
  rsame. eapply rres_bind; [apply Hex|]. intros c c' Hc. eapply rres_bind; [apply Hinv, Hc|]. intros i i' Hi.
  eapply rres_bind; [apply bernstein_basis_splines_rel; eauto|]. intros. apply rres_set; auto.
Qed.
Lemma tensor_spline_rel MAXB bs bs' idx dim : Forall2 (Forall2 (srel RT)) bs bs' ->
  rres (srel RT) (tensor_spline MAXB bs idx dim) (tensor_spline MAXB bs' idx dim).
Proof.
  intros Hb. unfold tensor_spline. eapply rres_bind; [apply rres_get; exact Hb|]. intros b b' Hbb. rsame.
  eapply rres_bind; [apply rres_get; exact Hbb|]. intros t t' Ht. apply rres_for_up; auto. intros k u u' Hu.
  eapply rres_bind; [apply rres_get; exact Hb|]. intros c c' Hc. rsame.
  eapply rres_bind; [apply rres_get; exact Hc|]. intros x x' Hx. apply (spline_mul_ss_rel RT HR'); auto.
Qed.
Lemma ComposeNumerator_rel MAXB (s : spline V1) s' degs : srel RV s s' ->
  rres (srel RV) (ComposeNumerator MAXB s degs ex inv) (ComposeNumerator MAXB s' degs ex' inv').
Proof.
  intros Hs. unfold ComposeNumerator, sum_degrees. cbv zeta. rewrite (sr_deg _ _ _ Hs).
  eapply rres_bind; [apply (Spline_deg_rel RT RV HM')|]. intros r r' Hr.
  eapply rres_bind; [apply all_basis_splines_rel, Hs|]. intros bs bs' Hbs. rewrite (sr_n _ _ _ Hs).
  apply rres_for_up; auto. intros i u u' Hu. rewrite (LocalToGlobalIndex_rel _ _ _ _ Hs). rsame.
  eapply rres_bind; [apply tensor_spline_rel; exact Hbs|]. intros t t' Ht. rewrite (sr_deg _ _ _ Ht). rsame.
  rewrite (sr_n _ _ _ Hu). eapply (rres_bind (Forall2 RV)).
  - apply rres_for_up; [apply Hu|]. intros j c c' Hc. eapply rres_bind; [apply rres_get; exact Hc|]. intros a a' Ha.
    eapply rres_bind; [apply rres_get, Ht|]. intros b b' Hb. eapply rres_bind; [apply rres_get, Hs|]. intros. apply rres_set; auto.
    apply (rm_add _ _ HM); auto. apply (rm_scale _ _ HM); auto.
  - intros. simpl. apply srel_with; auto.
Qed.
Lemma ComposeNumeratorSensitivity_rel MAXB (s : spline V1) s' degs : srel RV s s' ->
  rres (Forall2 (srel RT)) (ComposeNumeratorSensitivity MAXB s degs ex inv) (ComposeNumeratorSensitivity MAXB s' degs ex' inv').
Proof.
  intros Hs. unfold ComposeNumeratorSensitivity.
  eapply rres_bind; [apply all_basis_splines_rel, Hs|]. intros bs bs' Hbs. rewrite (sr_n _ _ _ Hs).
  apply rres_for_up; auto. intros i u u' Hu. rewrite (LocalToGlobalIndex_rel _ _ _ _ Hs). rsame. rewrite (sr_deg _ _ _ Hs).
  eapply rres_bind; [apply tensor_spline_rel; exact Hbs|]. intros t t' Ht. simpl. now apply rres_app1.
Qed.
End Compose.

Section ComposePoly.
Context {V1 V2 : Type} {ov1 : VOps T1 V1} {ov2 : VOps T2 V2} (RV : V1 -> V2 -> Prop) (HM' : rel_mod' RT RV).
Lemma inverse_poly_rel c c' : srel RT c c' -> rres (srel RT) (inverse_poly c) (inverse_poly c').
Proof.
  intros. unfold inverse_poly. apply (point_minus_spline_rel RT RT (rel_mod_scalar RT HR')); auto. apply (rr_1 _ HR).
Qed.
Lemma Compose_num_rel MAXB d (s : spline V1) s' (t : spline (point T1 d)) t' : srel RV s s' -> srel (prel d) t t' ->
  rres (srel RV) (ComposeNumerator MAXB s (degrees t) (ExtractDimension t) inverse_poly)
    (ComposeNumerator MAXB s' (degrees t') (ExtractDimension t') inverse_poly).
Proof.
  intros Hs Ht. rewrite (sr_deg _ _ _ Ht). apply ComposeNumerator_rel; auto.
  - intros. now apply ExtractDimension_rel.
  - apply inverse_poly_rel.
Qed.
Lemma Compose_sens_rel MAXB d (s : spline V1) s' (t : spline (point T1 d)) t' : srel RV s s' -> srel (prel d) t t' ->
  rres (Forall2 (srel RT)) (ComposeNumeratorSensitivity MAXB s (degrees t) (ExtractDimension t) inverse_poly)
    (ComposeNumeratorSensitivity MAXB s' (degrees t') (ExtractDimension t') inverse_poly).
Proof.
  intros Hs Ht. rewrite (sr_deg _ _ _ Ht). apply (ComposeNumeratorSensitivity_rel RV); auto.
  - intros. now apply ExtractDimension_rel.
  - apply inverse_poly_rel.
Qed.
End ComposePoly.

(** Rational splines *)
Section Rat.
Context {V1 V2 : Type} {ov1 : VOps T1 V1} {ov2 : VOps T2 V2} (RV : V1 -> V2 -> Prop) (HM' : rel_mod' RT RV).
Let HM := rm'_mod _ _ HM'.
Let HS := rel_mod_scalar RT HR'.
Record rrel (r : rspline T1 V1) (r' : rspline T2 V2) : Prop := {
  rl_u : srel RV (weighted_spline r) (weighted_spline r');
  rl_w : srel RT (weight_function r) (weight_function r')
}.
Lemma R_mk_rel u u' w w' : srel RV u u' -> srel RT w w' -> rres rrel (R_mk u w) (R_mk u' w').
Proof.
  intros Hu Hw. unfold R_mk, compatible. simpl. rewrite (sr_deg _ _ _ Hu), (sr_deg _ _ _ Hw). rsame. simpl. split; auto.
Qed.
Lemma R_OrderElevate_rel r r' dim : rrel r r' -> rres rrel (R_OrderElevate r dim) (R_OrderElevate r' dim).
Proof.
  intros [Hu Hw]. unfold R_OrderElevate. eapply rres_bind; [apply (OrderElevate_rel RT RV HR' HM'), Hu|]. intros u u' H1.
  eapply rres_bind; [apply (OrderElevate_rel RT RT HR' HS), Hw|]. intros w w' H2. now apply R_mk_rel.
Qed.
Lemma R_scale_assign_rel r r' c c' : rrel r r' -> RT c c' -> rres rrel (R_scale_assign r c) (R_scale_assign r' c').
Proof.
  intros [Hu Hw] Hc. unfold R_scale_assign. eapply rres_bind; [apply (scale_assign_rel RT RV HM'); eauto|]. intros. now apply R_mk_rel.
Qed.
Lemma R_neg_rel r r' : rrel r r' -> rres rrel (R_neg r) (R_neg r').
Proof.
  intros [Hu Hw]. unfold R_neg. eapply rres_bind; [apply (spline_neg_rel RT RV HM'); eauto|]. intros. now apply R_mk_rel.
Qed.
Lemma R_shift_loop_rel op op' r r' p p' : (forall a b a' b', RV a a' -> RV b b' -> RV (op a b) (op' a' b')) ->
  rrel r r' -> RV p p' -> rres (srel RV) (R_shift_loop op r p) (R_shift_loop op' r' p').
Proof.
  intros Hop [Hu Hw] Hp. unfold R_shift_loop. rewrite (sr_n _ _ _ Hu). eapply (rres_bind (Forall2 RV)).
  - apply rres_for_up; [apply Hu|]. intros i c c' Hc. eapply rres_bind; [apply rres_get; exact Hc|]. intros.
    eapply rres_bind; [apply rres_get, Hw|]. intros. apply rres_set; auto. apply Hop; auto. apply (rm_scale _ _ HM); auto.
  - intros. simpl. apply srel_with; auto.
Qed.
Lemma R_shift_assign_rel r r' p p' : rrel r r' -> RV p p' -> rres rrel (R_shift_assign r p) (R_shift_assign r' p').
Proof.
  intros H Hp. unfold R_shift_assign. eapply rres_bind; [apply R_shift_loop_rel; [|exact H|exact Hp]|].
  - intros; apply (rm_add _ _ HM); auto.
  - intros. apply R_mk_rel; auto. apply H.
Qed.
Lemma R_unshift_assign_rel r r' p p' : rrel r r' -> RV p p' -> rres rrel (R_unshift_assign r p) (R_unshift_assign r' p').
Proof.
  intros H Hp. unfold R_unshift_assign. eapply rres_bind; [apply R_shift_loop_rel; [|exact H|exact Hp]|].
  - intros; apply (rm'_sub _ _ HM'); auto.
  - intros. simpl. split; auto. apply H.
Qed.
Lemma R_SplitAtPosition_rel r r' x x' dim : rrel r r' -> RT x x' -> sltb s0 x && sltb x s1 = sltb s0 x' && sltb x' s1 ->
  rres (Forall2 rrel) (R_SplitAtPosition r x dim) (R_SplitAtPosition r' x' dim).
Proof.
  intros [Hu Hw] Hx E. unfold R_SplitAtPosition.
  eapply rres_bind; [apply (SplitAtPosition_rel RT RV HR' HM'); eauto|]. intros us us' Hus.
  eapply rres_bind; [apply (SplitAtPosition_rel RT RT HR' HS); eauto|]. intros ws ws' Hws.
  eapply rres_bind; [apply rres_get; exact Hus|]. intros u0 u0' H0. eapply rres_bind; [apply rres_get; exact Hws|]. intros w0 w0' K0.
  eapply rres_bind; [apply rres_get; exact Hus|]. intros u1 u1' H1. eapply rres_bind; [apply rres_get; exact Hws|]. intros w1 w1' K1.
  eapply rres_bind; [apply R_mk_rel; eauto|]. intros. eapply rres_bind; [apply R_mk_rel; eauto|]. intros. simpl. auto.
Qed.
Lemma spline_mul_vs_rel MAXB P P' Q Q' : srel RV P P' -> srel RT Q Q' ->
  rres (srel RV) (spline_mul_vs MAXB P Q) (spline_mul_vs MAXB P' Q').
Proof. intros. apply (spline_mul_rel RT RV RT RV); auto. intros; apply (rm_scale _ _ HM); auto. Qed.
Lemma spline_mul_sv_rel MAXB P P' Q Q' : srel RT P P' -> srel RV Q Q' ->
  rres (srel RV) (spline_mul_sv MAXB P Q) (spline_mul_sv MAXB P' Q').
Proof. intros. apply (spline_mul_rel RT RT RV RV); auto. intros; apply (rm_scale _ _ HM); auto. Qed.
Lemma R_derivative_step_rel MAXB fuel i r r' : rrel r r' -> rres rrel (R_derivative_step MAXB fuel i r) (R_derivative_step MAXB fuel i r').
Proof.
  intros [Hu Hw]. unfold R_derivative_step. rewrite (sr_deg _ _ _ Hu). rsame.
  eapply rres_bind; [apply (DerivativeWRT_rel RT RV HR' HM'), Hu|]. intros a a' Ha.
  eapply rres_bind; [apply spline_mul_vs_rel; eauto|]. intros b b' Hb.
  eapply rres_bind; [apply (DerivativeWRT_rel RT RT HR' HS), Hw|]. intros c c' Hc.
  eapply rres_bind; [apply spline_mul_sv_rel; eauto|]. intros e e' He.
  eapply rres_bind; [apply (spline_sub_rel RT RV HR' HM'); eauto|]. intros f f' Hf.
  eapply rres_bind; [apply (OrderElevate_rel RT RV HR' HM'), Hf|]. intros g g' Hg.
  eapply rres_bind; [apply (spline_mul_ss_rel RT HR'); eauto|]. intros. now apply R_mk_rel.
Qed.
Lemma R_DerivativeWRT_rel MAXB fuel orders r r' : rrel r r' -> rres rrel (R_DerivativeWRT MAXB fuel r orders) (R_DerivativeWRT MAXB fuel r' orders).
Proof.
  intros H. unfold R_DerivativeWRT. rewrite (sr_deg _ _ _ (rl_u _ _ H)). apply rres_for_up; auto. intros. rsame.
  apply rres_for_up; auto. intros. now apply R_derivative_step_rel.
Qed.
(** The sums branch on the equality of the weights. *)
Section Sum.
Context (MAXB fuel : nat) (r q : rspline T1 V1) (r' q' : rspline T2 V2) (H : rrel r r') (K : rrel q q').
Context (E : spline_eqb (weight_function r) (weight_function q) = spline_eqb (weight_function r') (weight_function q')).
Lemma R_add_rel : rres rrel (R_add MAXB fuel r q) (R_add MAXB fuel r' q').
Proof using HR' HM' H K E.
  destruct H as [Hu Hw], K as [Ku Kw]. unfold R_add. rewrite E. clear E. destruct (spline_eqb (weight_function r') (weight_function q')).
  - eapply rres_bind; [apply (spline_add_rel RT RV HR' HM'); eauto|]. intros. now apply R_mk_rel.
  - eapply rres_bind; [apply spline_mul_vs_rel; eauto|]. intros a a' Ha.
    eapply rres_bind; [apply spline_mul_sv_rel; eauto|]. intros b b' Hb.
    eapply rres_bind; [apply (spline_add_rel RT RV HR' HM'); eauto|]. intros c c' Hc.
    eapply rres_bind; [apply (spline_mul_ss_rel RT HR'); eauto|]. intros. now apply R_mk_rel.
Qed.
Lemma R_add_assign_rel : rres rrel (R_add_assign MAXB fuel r q) (R_add_assign MAXB fuel r' q').
Proof using HR' HM' H K E.
  destruct H as [Hu Hw], K as [Ku Kw]. unfold R_add_assign. rewrite E. clear E. destruct (spline_eqb (weight_function r') (weight_function q')).
  - eapply rres_bind; [apply (spline_add_assign_rel RT RV HR' HM'); eauto|]. intros. split; auto.
  - eapply rres_bind; [apply spline_mul_vs_rel; eauto|]. intros a a' Ha.
    eapply rres_bind; [apply spline_mul_sv_rel; eauto|]. intros b b' Hb.
    eapply rres_bind; [apply (spline_add_assign_rel RT RV HR' HM'); eauto|]. intros c c' Hc.
    eapply rres_bind; [apply (spline_mul_ss_rel RT HR'); eauto|]. intros. now apply R_mk_rel.
Qed.
Lemma R_sub_rel : rres rrel (R_sub MAXB fuel r q) (R_sub MAXB fuel r' q').
Proof using HR' HM' H K E.
  destruct H as [Hu Hw], K as [Ku Kw]. unfold R_sub. rewrite E. clear E. destruct (spline_eqb (weight_function r') (weight_function q')).
  - eapply rres_bind; [apply (spline_sub_rel RT RV HR' HM'); eauto|]. intros. now apply R_mk_rel.
  - eapply rres_bind; [apply spline_mul_vs_rel; eauto|]. intros a a' Ha.
    eapply rres_bind; [apply spline_mul_sv_rel; eauto|]. intros b b' Hb.
    eapply rres_bind; [apply (spline_sub_rel RT RV HR' HM'); eauto|]. intros c c' Hc.
    eapply rres_bind; [apply (spline_mul_ss_rel RT HR'); eauto|]. intros. now apply R_mk_rel.
Qed.
Lemma R_sub_assign_rel : rres rrel (R_sub_assign MAXB fuel r q) (R_sub_assign MAXB fuel r' q').
Proof using HR' HM' H K E.
  destruct H as [Hu Hw], K as [Ku Kw]. unfold R_sub_assign. rewrite E. clear E. destruct (spline_eqb (weight_function r') (weight_function q')).
  - eapply rres_bind; [apply (spline_sub_assign_rel RT RV HR' HM'); eauto|]. intros. split; auto.
  - eapply rres_bind; [apply spline_mul_vs_rel; eauto|]. intros a a' Ha.
    eapply rres_bind; [apply spline_mul_sv_rel; eauto|]. intros b b' Hb.
    eapply rres_bind; [apply (spline_sub_assign_rel RT RV HR' HM'); eauto|]. intros c c' Hc.
    eapply rres_bind; [apply (spline_mul_ss_rel RT HR'); eauto|]. intros. now apply R_mk_rel.
Qed.
End Sum.

(** Divisions and comparisons that need not agree: [L] is [rres] or [wres]. *)
Section Divisions.
Context (L : forall A B, (A -> B -> Prop) -> res A -> res B -> Prop).
Context (Lof : forall A B (P : A -> B -> Prop) a b, rres P a b -> L A B P a b).
Context (Lbind : forall A B C D (P : A -> B -> Prop) (Q : C -> D -> Prop) m m' k k',
  L A B P m m' -> (forall x y, P x y -> L C D Q (k x) (k' y)) -> L C D Q (bind m k) (bind m' k')).
Context (Ldiv : forall a b a' b', RT a a' -> RT b b' -> L T1 T2 RT (divS a b) (divS a' b')).
Arguments L {A B}.
Lemma Lrb {A B C D} (P : A -> B -> Prop) (Q : C -> D -> Prop) m m' k k' :
  rres P m m' -> (forall x y, P x y -> L Q (k x) (k' y)) -> L Q (bind m k) (bind m' k').
Proof using Lof Lbind. intros. eapply Lbind; [apply Lof; eauto|auto]. Qed.
Ltac lsame := let q := fresh "q" in let q' := fresh "q'" in eapply Lrb; [apply rres_same|intros q q' <-].

Lemma vdiv_rel v v' w w' : RV v v' -> RT w w' -> L RV (vdiv v w) (vdiv v' w').
Proof using Lof Lbind Ldiv HR' HM'.
  intros Hv Hw. unfold vdiv. eapply Lbind; [apply Ldiv; [apply (rr_1 _ HR)|exact Hw]|]. intros. apply Lof. simpl.
  apply (rm_scale _ _ HM); auto.
Qed.
Lemma R_Evaluate_rel r r' xs xs' : rrel r r' -> Forall2 RT xs xs' -> L RV (R_Evaluate r xs) (R_Evaluate r' xs').
Proof using Lof Lbind Ldiv HR' HM'.
  intros [Hu Hw] Hx. unfold R_Evaluate. eapply Lrb; [apply (Evaluate_rel RT RV HR HM); eauto|]. intros.
  eapply Lrb; [apply (Evaluate_rel RT RT HR (rm'_mod _ _ HS)); eauto|]. intros. now apply vdiv_rel.
Qed.
Lemma R_ControlPoint_rel r r' i : rrel r r' -> L RV (R_ControlPoint r i) (R_ControlPoint r' i).
Proof using Lof Lbind Ldiv HR' HM'.
  intros [Hu Hw]. unfold R_ControlPoint. eapply Lrb; [apply (ControlPoint_rel RV); eauto|]. intros.
  eapply Lrb; [apply (ControlPoint_rel RT); eauto|]. intros. now apply vdiv_rel.
Qed.
Lemma R_UnweightedBasisFunctions_rel MAXB r r' xs xs' : rrel r r' -> Forall2 RT xs xs' ->
  L (Forall2 RT) (R_UnweightedBasisFunctions MAXB r xs) (R_UnweightedBasisFunctions MAXB r' xs').
Proof using Lof Lbind Ldiv HR'.
  intros [Hu Hw] Hx. unfold R_UnweightedBasisFunctions, compatible. rewrite (sr_deg _ _ _ Hu), (sr_deg _ _ _ Hw). lsame.
  eapply Lrb; [apply (BasisFunctions_rel RT RT HR); eauto|]. intros f f' Hf. rewrite (F2_length _ _ _ Hf).
  eapply (Lrb RT).
  { apply rres_for_up; [apply (rr_0 _ HR)|]. intros. eapply rres_bind; [apply rres_get; exact Hf|]. intros.
    eapply rres_bind; [apply rres_get, Hw|]. intros. simpl. apply (rr_add _ HR); auto. apply (rr_mul _ HR); auto. }
  intros w w' Hww. eapply Lbind; [apply Ldiv; [apply (rr_1 _ HR)|exact Hww]|]. intros i i' Hi. apply Lof.
  apply rres_for_up; auto. intros. eapply rres_bind; [apply rres_get; eauto|]. intros. apply rres_set; auto. apply (rr_mul _ HR); auto.
Qed.
Lemma R_BasisFunctions_rel MAXB r r' xs xs' : rrel r r' -> Forall2 RT xs xs' ->
  L (Forall2 RT) (R_BasisFunctions MAXB r xs) (R_BasisFunctions MAXB r' xs').
Proof using Lof Lbind Ldiv HR'.
  intros H Hx. pose proof H as [Hu Hw]. unfold R_BasisFunctions, compatible. rewrite (sr_deg _ _ _ Hu), (sr_deg _ _ _ Hw). lsame.
  eapply Lbind; [apply R_UnweightedBasisFunctions_rel; eauto|]. intros f f' Hf. rewrite (F2_length _ _ _ Hf). apply Lof.
  apply rres_for_up; auto. intros. eapply rres_bind; [apply rres_get; eauto|]. intros.
  eapply rres_bind; [apply rres_get, Hw|]. intros. apply rres_set; auto. apply (rr_mul _ HR); auto.
Qed.

Lemma leibniz_loop_rel {X1 X2} (RX : X1 -> X2 -> Prop) MAXB z z' sub sub' sc sc' nd n A A' w w' :
  RX z z' -> (forall x c y x' c' y', RX x x' -> RT c c' -> RX y y' -> rres RX (sub x c y) (sub' x' c' y')) ->
  (forall x x', RX x x' -> rres RX (sc x) (sc' x')) -> Forall2 RX A A' -> Forall2 RT w w' ->
  rres (Forall2 RX) (leibniz_loop MAXB z sub sc nd n A w) (leibniz_loop MAXB z' sub' sc' nd n A' w').
Proof using HR'.
  intros Hz Hsub Hsc HA Hw. unfold leibniz_loop. apply rres_for_up; [apply F2_repeat; auto|]. intros i D D' HD. rsame.
  eapply rres_bind; [apply rres_get; exact HA|]. intros a a' Ha. eapply rres_bind; [apply rres_set; eauto|]. intros D1 D1' HD1.
  eapply (rres_bind (Forall2 RX)).
  - apply rres_for_up; auto. intros j E E' HE. rsame. rsame. destruct q1; [exact HE|]. rsame.
    eapply rres_bind; [apply rres_get; exact Hw|]. intros wj wj' Hwj.
    eapply rres_bind; [apply rres_get; exact HE|]. intros y y' Hy. eapply rres_bind; [apply rres_get; exact HE|]. intros x x' Hx.
    eapply rres_bind; [apply Hsub; [exact Hx| |exact Hy]|]. { apply (rr_mul _ HR); eauto. apply (rr_ofN _ HR). }
    intros. apply rres_set; auto.
  - intros E E' HE. eapply rres_bind; [apply rres_get; exact HE|]. intros x x' Hx. eapply rres_bind; [apply Hsc, Hx|].
    intros. apply rres_set; auto.
Qed.
Lemma R_EvaluateDerivative_rel MAXB r r' xs xs' ks : rrel r r' -> Forall2 RT xs xs' ->
  L RV (R_EvaluateDerivative MAXB r xs ks) (R_EvaluateDerivative MAXB r' xs' ks).
Proof using Lof Lbind Ldiv HR' HM'.
  intros [Hu Hw] Hx. unfold R_EvaluateDerivative. lsame. cbv zeta.
  eapply (Lrb (fun a b => Forall2 RV (fst a) (fst b) /\ Forall2 RT (snd a) (snd b))).
  - apply rres_for_up. { split; apply F2_repeat; [apply (rm_0 _ _ HM)|apply (rr_0 _ HR)]. }
    intros i (A & w) (A' & w') (H1 & H2). simpl in H1, H2. rsame.
    eapply rres_bind; [apply (EvaluateDerivative_rel RT RV HR' HM'); eauto|]. intros a a' Ha. eapply rres_bind; [apply rres_set; eauto|]. intros.
    eapply rres_bind; [apply (EvaluateDerivative_rel RT RT HR' HS); eauto|]. intros b b' Hb. eapply rres_bind; [apply rres_set; eauto|]. intros.
    split; auto.
  - intros (A & w) (A' & w') (H1 & H2). simpl in H1, H2. eapply Lrb; [apply rres_get; exact H2|]. intros w0 w0' H0.
    eapply Lbind; [apply Ldiv; [apply (rr_1 _ HR)|exact H0]|]. intros i i' Hi. apply Lof.
    eapply rres_bind; [apply (leibniz_loop_rel RV); eauto|].
    + apply (rm_0 _ _ HM).
    + intros. simpl. apply (rm'_sub _ _ HM'); auto. apply (rm_scale _ _ HM); auto.
    + intros. simpl. apply (rm_scale _ _ HM); auto.
    + intros. apply rres_get; auto.
Qed.
Lemma R_BasisFunctionsDerivatives_rel MAXB r r' xs xs' ks : rrel r r' -> Forall2 RT xs xs' ->
  L (Forall2 RT) (R_BasisFunctionsDerivatives MAXB r xs ks) (R_BasisFunctionsDerivatives MAXB r' xs' ks).
Proof using Lof Lbind Ldiv HR'.
  intros [Hu Hw] Hx. unfold R_BasisFunctionsDerivatives. lsame. cbv zeta. rewrite (sr_n _ _ _ Hu).
  set (PP := fun (a : list (list T1) * list T1) (b : list (list T2) * list T2) => Forall2 (Forall2 RT) (fst a) (fst b) /\ Forall2 RT (snd a) (snd b)).
  eapply (Lrb PP).
  - apply rres_for_up. { split; apply F2_repeat; [auto|apply (rr_0 _ HR)]. }
    intros i (A & w) (A' & w') (H1 & H2). simpl in H1, H2. rsame.
    eapply rres_bind; [apply (BasisFunctionsDerivatives_rel RT RV HR'); eauto|]. intros a a' Ha. eapply rres_bind; [apply rres_set; eauto|].
    intros B B' HB. apply rres_for_up; [split; auto|]. intros j (C & v) (C' & v') (K1 & K2). simpl in K1, K2.
    eapply rres_bind; [apply rres_get, Hw|]. intros g g' Hg. eapply rres_bind; [apply rres_get; exact K1|]. intros row row' Hrow.
    eapply rres_bind; [apply rres_get; exact Hrow|]. intros x x' Hxx. eapply rres_bind; [apply rres_get; exact K2|]. intros wi wi' Hwi.
    eapply rres_bind; [apply rres_set; [exact K2|]|]. { apply (rr_add _ HR); [eauto|]. apply (rr_mul _ HR); eauto. } intros v1 v1' Hv1.
    eapply rres_bind; [apply rres_set; [exact Hrow|]|]. { apply (rr_mul _ HR); eauto. } intros row1 row1' Hrow1.
    eapply rres_bind; [apply rres_set; [exact K1|exact Hrow1]|]. intros. split; auto.
  - intros (A & w) (A' & w') (H1 & H2). simpl in H1, H2. eapply Lrb; [apply rres_get; exact H2|]. intros w0 w0' H0.
    eapply Lbind; [apply Ldiv; [apply (rr_1 _ HR)|exact H0]|]. intros i i' Hi. apply Lof.
    eapply rres_bind; [apply (leibniz_loop_rel (Forall2 RT)); eauto|].
    + intros. apply rres_for_up; auto. intros. eapply rres_bind; [apply rres_get; eauto|]. intros. eapply rres_bind; [apply rres_get; eauto|]. intros.
      apply rres_set; auto. apply (rr_sub _ HR); auto. apply (rr_mul _ HR); auto.
    + intros. apply rres_for_up; auto. intros. eapply rres_bind; [apply rres_get; eauto|]. intros. apply rres_set; auto. apply (rr_mul _ HR); auto.
    + intros. apply rres_get; auto.
Qed.

(** Splitting at several positions. *)
Context (Llt : rel_lt \/ forall A B (P : A -> B -> Prop) m m', fails m \/ fails m' -> L P m m').
Lemma L_if A B (P : A -> B -> Prop) (c c' : bool) m m' : (rel_lt -> c = c') -> L P m m' ->
  L P (if c then Throw else m) (if c' then Throw else m').
Proof using Lof Llt.
  intros E H. destruct Llt as [K|K].
  - rewrite (E K). destruct c'; auto. apply Lof. exact I.
  - destruct c, c'; auto; apply K; simpl; auto.
Qed.
Lemma Split_L s s' x x' dim : srel RV s s' -> RT x x' -> L (Forall2 (srel RV)) (SplitAtPosition s x dim) (SplitAtPosition s' x' dim).
Proof using Lof Llt HR' HM'.
  intros Hs Hx.
  destruct (Bool.bool_dec (sltb s0 x && sltb x s1) (sltb s0 x' && sltb x' s1)) as [E|N].
  { apply Lof. apply (SplitAtPosition_rel RT RV HR' HM'); auto. }
  destruct Llt as [K|K].
  - destruct N. rewrite (K _ _ _ _ (rr_0 _ HR) Hx), (K _ _ _ _ Hx (rr_1 _ HR)). reflexivity.
  - apply K. unfold SplitAtPosition. destruct (sltb s0 x && sltb x s1), (sltb s0 x' && sltb x' s1); simpl; auto; congruence.
Qed.
Lemma R_Split_L r r' x x' dim : rrel r r' -> RT x x' -> L (Forall2 rrel) (R_SplitAtPosition r x dim) (R_SplitAtPosition r' x' dim).
Proof using Lof Llt HR' HM'.
  intros Hs Hx.
  destruct (Bool.bool_dec (sltb s0 x && sltb x s1) (sltb s0 x' && sltb x' s1)) as [E|N].
  { apply Lof. apply R_SplitAtPosition_rel; auto. }
  destruct Llt as [K|K].
  - destruct N. rewrite (K _ _ _ _ (rr_0 _ HR) Hx), (K _ _ _ _ Hx (rr_1 _ HR)). reflexivity.
  - apply K. unfold R_SplitAtPosition, SplitAtPosition. destruct (sltb s0 x && sltb x s1), (sltb s0 x' && sltb x' s1); simpl; auto; congruence.
Qed.
Lemma is_sorted_rel l l' : rel_lt -> Forall2 RT l l' -> is_sorted l = is_sorted l'.
Proof using.
  intros K. induction 1 as [|x x' l l' H1 H2 IH]; auto. destruct H2 as [|y y' t t' H2 H3]; auto.
  change (negb (sltb y x) && is_sorted (y :: t) = negb (sltb y' x') && is_sorted (y' :: t')).
  rewrite IH, (K _ _ _ _ H2 H1). reflexivity.
Qed.
Lemma L_for_up {A B} (P : A -> B -> Prop) f g n lo a b :
  P a b -> (forall i x y, P x y -> L P (f i x) (g i y)) -> L P (for_up lo n f a) (for_up lo n g b).
Proof using Lof Lbind.
  intros H S. revert lo a b H; induction n; intros lo a b H; [apply Lof; exact H|]. simpl.
  eapply Lbind; [apply S; exact H|]. intros; apply IHn; auto.
Qed.
Section Many.
Context {S1 S2 : Type} (RS : S1 -> S2 -> Prop) (sp : S1 -> T1 -> res (list S1)) (sp' : S2 -> T2 -> res (list S2)).
Context (Hsp : forall s s' x x', RS s s' -> RT x x' -> L (Forall2 RS) (sp s x) (sp' s' x')).
Lemma many_rel s s' pl pl' : RS s s' -> Forall2 RT pl pl' ->
  L (Forall2 RS)
    (if negb (is_sorted pl) then Throw else
     if length pl =? 0 then Ok [s] else
     do p0 <- get pl 0;
     do split <- sp s p0;
     do x <- get split 0;
     do '(out, split) <- for_up 1 (length pl - 1) (fun i '(out, split) =>
       do pi <- get pl i;
       do pm <- get pl (i - 1);
       do rel <- divS (ssub pi pm) (ssub s1 pm);
       do rest <- get split 1;
       do split <- sp rest rel;
       do x <- get split 0;
       Ok (out ++ [x], split)) ([x], split);
     do x <- get split 1;
     Ok (out ++ [x]))
    (if negb (is_sorted pl') then Throw else
     if length pl' =? 0 then Ok [s'] else
     do p0 <- get pl' 0;
     do split <- sp' s' p0;
     do x <- get split 0;
     do '(out, split) <- for_up 1 (length pl' - 1) (fun i '(out, split) =>
       do pi <- get pl' i;
       do pm <- get pl' (i - 1);
       do rel <- divS (ssub pi pm) (ssub s1 pm);
       do rest <- get split 1;
       do split <- sp' rest rel;
       do x <- get split 0;
       Ok (out ++ [x], split)) ([x], split);
     do x <- get split 1;
     Ok (out ++ [x])).
Proof using Lof Lbind Ldiv Llt HR' Hsp.
  intros Hs Hp. apply L_if; [intros K; now rewrite (is_sorted_rel _ _ K Hp)|]. rewrite (F2_length _ _ _ Hp).
  destruct (_ =? 0); [apply Lof; simpl; auto|].
  eapply Lrb; [apply rres_get; exact Hp|]. intros p0 p0' H0. eapply Lbind; [apply Hsp; eauto|]. intros sq sq' Hq.
  eapply Lrb; [apply rres_get; exact Hq|]. intros x x' Hx.
  apply (Lbind _ _ _ _ (fun a b => Forall2 RS (fst a) (fst b) /\ Forall2 RS (snd a) (snd b))).
  - apply L_for_up; [split; simpl; auto|]. intros i (ou & sl) (ou' & sl') (H1 & H2). simpl in H1, H2.
    eapply Lrb; [apply rres_get; exact Hp|]. intros pi pi' Hpi. eapply Lrb; [apply rres_get; exact Hp|]. intros pm pm' Hpm.
    eapply Lbind; [apply Ldiv; apply (rr_sub _ HR); eauto; apply (rr_1 _ HR)|]. intros re re' Hre.
    eapply Lrb; [apply rres_get; exact H2|]. intros rst rst' Hrst. eapply Lbind; [apply Hsp; eauto|]. intros s2 s2' Hs2.
    eapply Lrb; [apply rres_get; exact Hs2|]. intros. apply Lof. split; simpl; auto. now apply rres_app1.
  - intros (ou & sl) (ou' & sl') (H1 & H2). simpl in H1, H2. eapply Lrb; [apply rres_get; exact H2|]. intros. apply Lof. simpl.
    now apply rres_app1.
Qed.
End Many.
Lemma SplitAtPositions_rel s s' pl pl' dim : srel RV s s' -> Forall2 RT pl pl' ->
  L (Forall2 (srel RV)) (SplitAtPositions s pl dim) (SplitAtPositions s' pl' dim).
Proof using Lof Lbind Ldiv Llt HR' HM'.
  intros Hs Hp. apply (many_rel (srel RV) (fun s x => SplitAtPosition s x dim) (fun s x => SplitAtPosition s x dim)); auto.
  intros. now apply Split_L.
Qed.
Lemma R_SplitAtPositions_rel r r' pl pl' dim : rrel r r' -> Forall2 RT pl pl' ->
  L (Forall2 rrel) (R_SplitAtPositions r pl dim) (R_SplitAtPositions r' pl' dim).
Proof using Lof Lbind Ldiv Llt HR' HM'.
  intros Hs Hp. apply (many_rel rrel (fun s x => R_SplitAtPosition s x dim) (fun s x => R_SplitAtPosition s x dim)); auto.
  intros. now apply R_Split_L.
Qed.

(** Compositions that test the inner spline. *)
Lemma L_fits A B (P : A -> B -> Prop) (m : res bool) (m' : res bool) k k' : (rel_lt -> L eq m m') -> L P k k' ->
  L P (do b <- m; if negb b then Throw else k) (do b <- m'; if negb b then Throw else k').
Proof using Lof Lbind Llt.
  intros H K. destruct Llt as [E|E].
  - eapply Lbind; [apply H, E|]. intros b b' <-. destruct b; simpl; auto. apply Lof. exact I.
  - destruct m as [[|]| | | | |]; try (apply E; left; exact I).
    destruct m' as [[|]| | | | |]; try (apply E; right; exact I). exact K.
Qed.
End Divisions.

End Rat.

Section RatPoints.
Context {d : nat}.
Context (L : forall A B, (A -> B -> Prop) -> res A -> res B -> Prop).
Context (Lof : forall A B (P : A -> B -> Prop) a b, rres P a b -> L A B P a b).
Context (Lbind : forall A B C D (P : A -> B -> Prop) (Q : C -> D -> Prop) m m' k k',
  L A B P m m' -> (forall x y, P x y -> L C D Q (k x) (k' y)) -> L C D Q (bind m k) (bind m' k')).
Context (Ldiv : forall a b a' b', RT a a' -> RT b b' -> L T1 T2 RT (divS a b) (divS a' b')).
Arguments L {A B}.
Notation rb := (Lrb (@L) Lof Lbind).
Let HP := rel_mod_point d.
Lemma R_Corner_rel pick pick' (r : rspline T1 (point T1 d)) (r' : rspline T2 (point T2 d)) :
  (forall a b a' b', RT a a' -> RT b b' -> RT (pick a b) (pick' a' b')) ->
  rrel (prel d) r r' -> L (prel d) (R_Corner pick r) (R_Corner pick' r').
Proof using Lof Lbind Ldiv HR'.
  intros Hp Hr. pose proof Hr as [Hu Hw]. unfold R_Corner. rewrite (sr_n _ _ _ Hu). destruct (_ =? 0); [apply Lof; exact I|].
  rewrite (LocalToGlobalIndex_rel _ _ _ _ Hw). eapply rb; [apply rres_same|]. intros i0 ? <-.
  eapply Lbind; [apply (R_ControlPoint_rel (prel d) HP (@L) Lof Lbind Ldiv); eauto|]. intros m m' Hm.
  apply (L_for_up (@L) Lof Lbind); auto. intros i u u' Hu'. eapply rb; [apply rres_get, Hu|]. intros p p' Hpp.
  eapply rb; [apply rres_get, Hw|]. intros w w' Hww.
  eapply Lbind; [apply (vdiv_rel (prel d) HP (@L) Lof Lbind Ldiv); eauto|]. intros c c' Hc. apply Lof.
  apply rres_for_up; auto. intros j x x' Hx. eapply rres_bind; [apply pget_rel; exact Hx|]. intros a a' Ha.
  eapply rres_bind; [apply pget_rel; exact Hc|]. intros b b' Hb. apply pset_rel; auto.
Qed.
Lemma R_FitsIntoUnitCube_rel (r : rspline T1 (point T1 d)) r' : rel_lt -> rrel (prel d) r r' ->
  L eq (R_FitsIntoUnitCube r) (R_FitsIntoUnitCube r').
Proof using Lof Lbind Ldiv HR'.
  intros K Hr. unfold R_FitsIntoUnitCube.
  eapply Lbind; [apply R_Corner_rel; [apply smax_rel, K|exact Hr]|]. intros.
  eapply Lbind; [apply R_Corner_rel; [apply smin_rel, K|exact Hr]|]. intros. apply Lof. now apply corners_fit_rel.
Qed.
End RatPoints.

Section Rat2.
Context {V1 V2 : Type} {ov1 : VOps T1 V1} {ov2 : VOps T2 V2} (RV : V1 -> V2 -> Prop) (HM' : rel_mod' RT RV).
Let HM := rm'_mod _ _ HM'.
Let HS := rel_mod_scalar RT HR'.
Notation rrV := (rrel RV).
Section Compositions.
Context {d : nat}.
Lemma ComposeNumerator_R_rel MAXB fuel {W1 W2} {ow1 : VOps T1 W1} {ow2 : VOps T2 W2} (RW : W1 -> W2 -> Prop) (HW : rel_mod' RT RW)
  (s : spline W1) s' (t : rspline T1 (point T1 d)) t' : srel RW s s' ->
  srel (prel d) (weighted_spline t) (weighted_spline t') -> srel RT (weight_function t) (weight_function t') ->
  rres (srel RW) (ComposeNumerator_R MAXB fuel s t) (ComposeNumerator_R MAXB fuel s' t').
Proof.
  intros Hs Hu Hw. unfold ComposeNumerator_R. rewrite (sr_deg _ _ _ Hu). apply ComposeNumerator_rel; auto.
  - intros. now apply ExtractDimension_rel.
  - intros. unfold inverse_rational. apply (spline_sub_rel RT RT HR' HS); auto.
Qed.
Lemma ComposeNumeratorSensitivity_R_rel MAXB fuel {W1 W2} {ow1 : VOps T1 W1} {ow2 : VOps T2 W2} (RW : W1 -> W2 -> Prop)
  (s : spline W1) s' (t : rspline T1 (point T1 d)) t' : srel RW s s' ->
  srel (prel d) (weighted_spline t) (weighted_spline t') -> srel RT (weight_function t) (weight_function t') ->
  rres (Forall2 (srel RT)) (ComposeNumeratorSensitivity_R MAXB fuel s t) (ComposeNumeratorSensitivity_R MAXB fuel s' t').
Proof.
  intros Hs Hu Hw. unfold ComposeNumeratorSensitivity_R. rewrite (sr_deg _ _ _ Hu). apply (ComposeNumeratorSensitivity_rel RW); auto.
  - intros. now apply ExtractDimension_rel.
  - intros. unfold inverse_rational. apply (spline_sub_rel RT RT HR' HS); auto.
Qed.
Lemma ComposeDenominator_rel MAXB (s : spline V1) s' (t : rspline T1 (point T1 d)) (t' : rspline T2 (point T2 d)) : srel RV s s' ->
  srel RT (weight_function t) (weight_function t') ->
  rres (srel RT) (ComposeDenominator MAXB s t) (ComposeDenominator MAXB s' t').
Proof.
  intros Hs Hw. unfold ComposeDenominator, sum_degrees. rewrite (sr_deg _ _ _ Hs). now apply (RaisePower_rel RT HR').
Qed.
Lemma Compose_RR_rel MAXB fuel (s : rspline T1 V1) s' (t : rspline T1 (point T1 d)) (t' : rspline T2 (point T2 d)) : rrV s s' ->
  srel (prel d) (weighted_spline t) (weighted_spline t') -> srel RT (weight_function t) (weight_function t') ->
  rres rrV (Compose_RR MAXB fuel s t) (Compose_RR MAXB fuel s' t').
Proof.
  intros [Hu Hw] Ht Htw. unfold Compose_RR.
  eapply rres_bind; [apply (ComposeNumerator_R_rel MAXB fuel RV HM'); eauto|]. intros u u' H1.
  eapply rres_bind; [apply (ComposeNumerator_R_rel MAXB fuel RT HS); eauto|]. intros w w' H2. now apply R_mk_rel.
Qed.
Lemma scale_sensitivities_rel (s : rspline T1 V1) s' ns ns' e e' : rrV s s' -> Forall2 (srel RT) ns ns' -> srel RT e e' ->
  rres (Forall2 (rrel RT)) (scale_sensitivities s ns e) (scale_sensitivities s' ns' e').
Proof.
  intros Hs Hn He. unfold scale_sensitivities. rewrite (F2_length _ _ _ Hn). apply rres_for_up; auto. intros i o o' Ho.
  eapply rres_bind; [apply rres_get; exact Hn|]. intros u u' Hu. eapply rres_bind; [apply rres_get, Hs|]. intros w w' Hw.
  eapply rres_bind; [apply (scale_assign_rel RT RT HS); eauto|]. intros v v' Hv.
  eapply rres_bind; [apply (R_mk_rel RT); eauto|]. intros. simpl. now apply rres_app1.
Qed.
Lemma ComposeSensitivity_RR_rel MAXB fuel (s : rspline T1 V1) s' (t : rspline T1 (point T1 d)) t' : rrV s s' ->
  srel (prel d) (weighted_spline t) (weighted_spline t') -> srel RT (weight_function t) (weight_function t') ->
  rres (Forall2 (rrel RT)) (ComposeSensitivity_RR MAXB fuel s t) (ComposeSensitivity_RR MAXB fuel s' t').
Proof.
  intros Hs Ht Htw. unfold ComposeSensitivity_RR.
  eapply rres_bind; [apply (ComposeNumeratorSensitivity_R_rel MAXB fuel RV); eauto; apply Hs|]. intros u u' H1.
  eapply rres_bind; [apply (ComposeNumerator_R_rel MAXB fuel RT HS); eauto; apply Hs|]. intros w w' H2. now apply scale_sensitivities_rel.
Qed.
Section Tests.
Context (L : forall A B, (A -> B -> Prop) -> res A -> res B -> Prop).
Context (Lof : forall A B (P : A -> B -> Prop) a b, rres P a b -> L A B P a b).
Context (Lbind : forall A B C D (P : A -> B -> Prop) (Q : C -> D -> Prop) m m' k k',
  L A B P m m' -> (forall x y, P x y -> L C D Q (k x) (k' y)) -> L C D Q (bind m k) (bind m' k')).
Context (Ldiv : forall a b a' b', RT a a' -> RT b b' -> L T1 T2 RT (divS a b) (divS a' b')).
Context (Llt : rel_lt \/ forall A B (P : A -> B -> Prop) m m', fails m \/ fails m' -> L A B P m m').
Arguments L {A B}.
Lemma Compose_L {W1 W2} {ow1 : VOps T1 W1} {ow2 : VOps T2 W2} (RW : W1 -> W2 -> Prop) (HW : rel_mod' RT RW) MAXB
  (s : spline W1) s' (t : spline (point T1 d)) t' : srel RW s s' -> srel (prel d) t t' ->
  L (srel RW) (Compose MAXB s t) (Compose MAXB s' t').
Proof using Lof Lbind Llt HR'.
  intros Hs Ht. unfold Compose. apply (L_fits (@L) Lof Lbind Llt).
  - intros K. apply Lof. now apply FitsIntoUnitCube_rel.
  - apply Lof. now apply (Compose_num_rel RW HW).
Qed.
Lemma ComposeSensitivity_L {W1 W2} {ow1 : VOps T1 W1} {ow2 : VOps T2 W2} (RW : W1 -> W2 -> Prop) MAXB
  (s : spline W1) s' (t : spline (point T1 d)) t' : srel RW s s' -> srel (prel d) t t' ->
  L (Forall2 (srel RT)) (ComposeSensitivity MAXB s t) (ComposeSensitivity MAXB s' t').
Proof using Lof Lbind Llt HR'.
  intros Hs Ht. unfold ComposeSensitivity. apply (L_fits (@L) Lof Lbind Llt).
  - intros K. apply Lof. now apply FitsIntoUnitCube_rel.
  - apply Lof. now apply (Compose_sens_rel RW).
Qed.
Lemma Compose_RP_L MAXB (s : rspline T1 V1) s' (t : spline (point T1 d)) t' : rrV s s' -> srel (prel d) t t' ->
  L rrV (Compose_RP MAXB s t) (Compose_RP MAXB s' t').
Proof using Lof Lbind Llt HR' HM'.
  intros [Hu Hw] Ht. unfold Compose_RP. eapply Lbind; [apply (Compose_L RV HM'); eauto|]. intros.
  eapply Lbind; [apply (Compose_L RT HS); eauto|]. intros. apply Lof. now apply R_mk_rel.
Qed.
Lemma ComposeSensitivity_RP_L MAXB (s : rspline T1 V1) s' (t : spline (point T1 d)) t' : rrV s s' -> srel (prel d) t t' ->
  L (Forall2 (rrel RT)) (ComposeSensitivity_RP MAXB s t) (ComposeSensitivity_RP MAXB s' t').
Proof using Lof Lbind Llt HR' HM'.
  intros Hs Ht. unfold ComposeSensitivity_RP. eapply Lbind; [apply (ComposeSensitivity_L RV); eauto; apply Hs|]. intros.
  eapply Lbind; [apply (Compose_L RT HS); eauto; apply Hs|]. intros. apply Lof. now apply scale_sensitivities_rel.
Qed.
Lemma Compose_PR_L MAXB fuel (s : spline V1) s' (t : rspline T1 (point T1 d)) t' : srel RV s s' -> rrel (prel d) t t' ->
  L rrV (Compose_PR MAXB fuel s t) (Compose_PR MAXB fuel s' t').
Proof using Lof Lbind Ldiv Llt HR' HM'.
  intros Hs Ht. unfold Compose_PR. apply (L_fits (@L) Lof Lbind Llt).
  - intros K. now apply (R_FitsIntoUnitCube_rel (@L) Lof Lbind Ldiv).
  - apply Lof. destruct Ht as [Hu Hw]. eapply rres_bind; [apply (ComposeNumerator_R_rel MAXB fuel RV HM'); eauto|]. intros.
    eapply rres_bind; [apply ComposeDenominator_rel; eauto|]. intros. now apply R_mk_rel.
Qed.
Lemma ComposeSensitivity_PR_L MAXB fuel (s : spline V1) s' (t : rspline T1 (point T1 d)) t' : srel RV s s' -> rrel (prel d) t t' ->
  L (Forall2 (rrel RT)) (ComposeSensitivity_PR MAXB fuel s t) (ComposeSensitivity_PR MAXB fuel s' t').
Proof using Lof Lbind Ldiv Llt HR' HM'.
  intros Hs Ht. unfold ComposeSensitivity_PR. apply (L_fits (@L) Lof Lbind Llt).
  - intros K. now apply (R_FitsIntoUnitCube_rel (@L) Lof Lbind Ldiv).
  - apply Lof. destruct Ht as [Hu Hw]. eapply rres_bind; [apply (ComposeNumeratorSensitivity_R_rel MAXB fuel RV); eauto|]. intros us us' Hus.
    eapply rres_bind; [apply ComposeDenominator_rel; eauto|]. intros w w' Hww. rewrite (sr_n _ _ _ Hs). apply rres_for_up; auto.
    intros. eapply rres_bind; [apply rres_get; exact Hus|]. intros. eapply rres_bind; [apply (R_mk_rel RT); eauto|]. intros. simpl.
    now apply rres_app1.
Qed.
End Tests.
End Compositions.
End Rat2.

Lemma R_mul_rel MAXB {U1 U2 V1 V2 W1 W2} {ow1 : VOps T1 W1} {ow2 : VOps T2 W2} (RU : U1 -> U2 -> Prop) (RV : V1 -> V2 -> Prop) (RW : W1 -> W2 -> Prop)
  (HW : rel_mod' RT RW) pm1 pm2 r r' q q' : (forall a b a' b', RU a a' -> RV b b' -> RW (pm1 a b) (pm2 a' b')) ->
  rrel RU r r' -> rrel RV q q' -> rres (rrel RW) (R_mul MAXB pm1 r q) (R_mul MAXB pm2 r' q').
Proof.
  intros Hp [Hu Hw] [Ku Kw]. unfold R_mul. eapply rres_bind; [apply (spline_mul_rel RT RU RV RW); eauto|]. intros u u' H1.
  eapply rres_bind; [apply (spline_mul_ss_rel RT HR'); eauto|]. intros. now apply R_mk_rel.
Qed.
End Rel.
