(** Splines over AlgoDiffType. *)
From Coq Require Import Arith Lia List ZArith NArith Bool Reals Lra.
From Verif Require Import Prelude Scalar Spec SpecSpline Sums Coord ModelBasis ModelSpline ProofBasis ProofEval ClaimsA
  ModelRational SpecRational SpecReal ProofReal ClaimsF ModelAD SpecAD ProofAD ModelADSpline SpecADSpline ProofParam.
Import ListNotations.
Local Open Scope R_scope.

Lemma tracks_ext y a f g : (forall y', f y' = g y') -> tracks y a f -> tracks y a g.
Proof.
  intros E (H1 & H2 & H3). split; [now rewrite <- E|]. split; auto. intros i Hi.
  eapply dl_ext; [|apply H3; auto]. intros; apply E.
Qed.

Lemma tracks_const y c : tracks y (AD_constant (length y) c) (fun _ => c).
Proof.
  split; [reflexivity|]. split; [apply repeat_length|]. intros i Hi. simpl.
  rewrite nth_repeat. apply dl_const.
Qed.

Lemma tracks_input y i : (i < length y)%nat ->
  exists a, AD_input (length y) (nth i y 0) i = Ok a /\ tracks y a (fun y' => nth i y' 0).
Proof.
  intros Hi. unfold AD_input. rewrite repeat_length. rewrite (proj2 (Nat.ltb_lt _ _)) by auto. cbn [assert_ bind].
  unfold set. rewrite repeat_length, (proj2 (Nat.ltb_lt _ _)) by auto. cbn [bind].
  eexists. split; [reflexivity|]. split; [reflexivity|]. simpl. rewrite length_upd, repeat_length. split; auto.
  intros k Hk. rewrite nth_upd by (rewrite repeat_length; auto).
  destruct (Nat.eqb_spec k i) as [->|N].
  - eapply dl_ext; [|apply dl_id]. intros t. simpl. rewrite nth_upd by auto. now rewrite Nat.eqb_refl.
  - rewrite nth_repeat. eapply dl_ext; [|apply (dl_const (nth i y 0))]. intros t. simpl. rewrite nth_upd by auto.
    destruct (Nat.eqb_spec i k); congruence.
Qed.

Lemma upd_same (y : list R) i : upd_list y i (nth i y 0) = y.
Proof. revert i; induction y; intros [|i]; simpl; auto. now rewrite IHy. Qed.

Section Ops.
Context (y : list R).
Notation n := (length y).
#[local] Instance oAD : SOps (adt R) := SOps_AD n.

Lemma assert_same a b f g : tracks y a f -> tracks y b g -> same_number a b = Ok tt.
Proof.
  intros (_ & A & _) (_ & B & _). unfold same_number. rewrite A, B, Nat.eqb_refl. reflexivity.
Qed.

Lemma tracks_bin a b f g (op : adt R -> adt R -> res (adt R)) (h : R -> R -> R) (dh : R -> R -> R -> R -> R) r :
  tracks y a f -> tracks y b g -> op a b = Ok r -> ad_v r = h (ad_v a) (ad_v b) -> length (ad_d r) = n ->
  (forall i, (i < n)%nat -> nth i (ad_d r) 0 = dh (ad_v a) (ad_v b) (nth i (ad_d a) 0) (nth i (ad_d b) 0)) ->
  (forall u v x p q, u x = ad_v a -> v x = ad_v b -> derivable_pt_lim u x p -> derivable_pt_lim v x q ->
     derivable_pt_lim (fun t => h (u t) (v t)) x (dh (u x) (v x) p q)) ->
  tracks y (run n (op a b)) (fun y' => h (f y') (g y')).
Proof.
  intros (A1 & A2 & A3) (B1 & B2 & B3) E V L D H. rewrite E. simpl. split; [now rewrite V, A1, B1|]. split; auto.
  intros i Hi. rewrite D by auto. specialize (A3 i Hi). specialize (B3 i Hi).
  pose proof (H (fun t => f (upd_list y i t)) (fun t => g (upd_list y i t)) (nth i y 0)) as K.
  cbv beta in K. rewrite upd_same in K. specialize (K (nth i (ad_d a) 0) (nth i (ad_d b) 0)).
  rewrite A1, B1. apply K; auto.
Qed.

Lemma tracks_add a b f g : tracks y a f -> tracks y b g -> tracks y (sadd a b) (fun y' => f y' + g y').
Proof.
  intros Ha Hb. pose proof (assert_same _ _ _ _ Ha Hb) as HS.
  destruct (each2_ok a_add Rplus (ad_d a) (ad_d b)) as (r & Er & Lr & Dr).
  { reflexivity. } { destruct Ha as (_ & -> & _), Hb as (_ & -> & _); auto. }
  apply (tracks_bin a b f g AD_add Rplus (fun _ _ p q => p + q) (mkADT (ad_v a + ad_v b) r)); auto.
  - unfold AD_add, AD_add_assign. rewrite HS. cbn [bind a_add ADScalar_R]. change (fun x y0 : R => Ok (x + y0)) with a_add.
    rewrite Er. reflexivity.
  - simpl. rewrite Lr. apply Ha.
  - intros i Hi. simpl. apply Dr. destruct Ha as (_ & -> & _); auto.
  - intros. apply dl_plus; auto.
Qed.

Lemma tracks_sub a b f g : tracks y a f -> tracks y b g -> tracks y (ssub a b) (fun y' => f y' - g y').
Proof.
  intros Ha Hb. pose proof (assert_same _ _ _ _ Ha Hb) as HS.
  destruct (each2_ok a_sub Rminus (ad_d a) (ad_d b)) as (r & Er & Lr & Dr).
  { reflexivity. } { destruct Ha as (_ & -> & _), Hb as (_ & -> & _); auto. }
  apply (tracks_bin a b f g AD_sub Rminus (fun _ _ p q => p - q) (mkADT (ad_v a - ad_v b) r)); auto.
  - unfold AD_sub, AD_sub_assign. rewrite HS. cbn [bind a_sub ADScalar_R]. change (fun x y0 : R => Ok (x - y0)) with a_sub.
    rewrite Er. reflexivity.
  - simpl. rewrite Lr. apply Ha.
  - intros i Hi. simpl. apply Dr. destruct Ha as (_ & -> & _); auto.
  - intros. apply dl_minus; auto.
Qed.

Lemma tracks_mul a b f g : tracks y a f -> tracks y b g -> tracks y (smul a b) (fun y' => f y' * g y').
Proof.
  intros Ha Hb. pose proof (assert_same _ _ _ _ Ha Hb) as HS.
  set (F := fun x z => do l <- a_mul z (ad_v a); do r <- a_mul (ad_v b) x; a_add l r).
  destruct (each2_ok F (fun x z => z * ad_v a + ad_v b * x) (ad_d a) (ad_d b)) as (r & Er & Lr & Dr).
  { reflexivity. } { destruct Ha as (_ & -> & _), Hb as (_ & -> & _); auto. }
  apply (tracks_bin a b f g AD_mul Rmult (fun u v p q => q * u + v * p) (mkADT (ad_v a * ad_v b) r)); auto.
  - unfold AD_mul, AD_mul_assign. rewrite HS. cbn [bind]. fold F. rewrite Er. reflexivity.
  - simpl. rewrite Lr. apply Ha.
  - intros i Hi. simpl. apply Dr. destruct Ha as (_ & -> & _); auto.
  - intros u v x p q _ _ Hu Hv. eapply dl_eq; [|apply dl_mult; eauto]. ring.
Qed.

Lemma tracks_div a b f g : g y <> 0 -> tracks y a f -> tracks y b g -> tracks y (sdiv a b) (fun y' => f y' / g y').
Proof.
  intros HN Ha Hb. pose proof (assert_same _ _ _ _ Ha Hb) as HS.
  assert (Hv : ad_v b <> 0) by (destruct Hb as (-> & _); auto).
  set (w := 1 / (ad_v b * ad_v b)).
  set (F := fun x z => do l <- a_mul (ad_v b) x; do r <- a_mul z (ad_v a); do m <- a_sub l r; a_mul m w).
  destruct (each2_ok F (fun x z => (ad_v b * x - z * ad_v a) * w) (ad_d a) (ad_d b)) as (r & Er & Lr & Dr).
  { reflexivity. } { destruct Ha as (_ & -> & _), Hb as (_ & -> & _); auto. }
  apply (tracks_bin a b f g AD_div Rdiv (fun u v p q => (v * p - q * u) * (1 / (v * v))) (mkADT (ad_v a / ad_v b) r)); auto.
  - unfold AD_div, AD_div_assign. rewrite HS. cbn [bind].
    change (a_mul (ad_v b) (ad_v b)) with (Ok (ad_v b * ad_v b)). cbn [bind].
    change (a_div_l 1 (ad_v b * ad_v b)) with (fdiv 1 (ad_v b * ad_v b)).
    rewrite fdiv_ok by (intros E; apply Rmult_integral in E; destruct E; auto). cbn [bind]. fold w. fold F.
    rewrite Er. cbn [bind]. change (a_div (ad_v a) (ad_v b)) with (fdiv (ad_v a) (ad_v b)).
    rewrite fdiv_ok by auto. reflexivity.
  - simpl. rewrite Lr. apply Ha.
  - intros i Hi. simpl. rewrite Dr; auto. destruct Ha as (_ & -> & _); auto.
  - intros u v x p q _ E Hu Hw. eapply dl_eq; [|apply dl_div; eauto; congruence]. unfold Rsqr. field. congruence.
Qed.

(** Functions as scalars and points. *)
Definition SOps_fun : SOps (list R -> R) := {|
  s0 := fun _ => 0; s1 := fun _ => 1; sadd := fun f g y => f y + g y; ssub := fun f g y => f y - g y;
  smul := fun f g y => f y * g y; sopp := fun f y => - f y; sdiv := fun f g y => f y / g y;
  sltb := fun f g => sltb (f y) (g y); seqb := fun f g => seqb (f y) (g y); sofN := fun k _ => sofN k |}.
#[local] Instance oF : SOps (list R -> R) := SOps_fun.
Definition VOps_fun (V : Type) {ov : VOps R V} : VOps (list R -> R) (list R -> V) := {|
  v0 := fun _ => v0; vadd := fun f g y => vadd (f y) (g y); vsub := fun f g y => vsub (f y) (g y);
  vopp := fun f y => vopp (f y); vscale := fun c f y => vscale (c y) (f y); veqb := fun f g => veqb (f y) (g y) |}.

Lemma ring_tracks : rel_ring (tracks y).
Proof.
  split; intros.
  - apply tracks_const.
  - apply tracks_const.
  - now apply tracks_add.
  - now apply tracks_sub.
  - now apply tracks_mul.
  - apply tracks_const.
Qed.
Definition at_point {A} (y' : list R) (f : list R -> A) (r : A) : Prop := f y' = r.
Lemma ring_at y' : rel_ring (at_point (A := R) y').
Proof. unfold at_point. split; intros; subst; reflexivity. Qed.
Lemma mod_at V (ov : VOps R V) y' : rel_mod (ov1 := VOps_fun V) (at_point (A := R) y') (at_point (A := V) y').
Proof. unfold at_point. split; intros; subst; reflexivity. Qed.

(** Points *)
Lemma nth_pmap2 {S} d (f : S -> S -> S) p q k z : (k < d)%nat ->
  nth k (plist d (pmap2 d f p q)) z = f (nth k (plist d p) z) (nth k (plist d q) z).
Proof. revert k; induction d; intros k Hk; [lia|]. destruct k; simpl; auto. apply IHd. lia. Qed.
Lemma nth_pmap {S} d (f : S -> S) p k z : (k < d)%nat -> nth k (plist d (pmap d f p)) z = f (nth k (plist d p) z).
Proof. revert k; induction d; intros k Hk; [lia|]. destruct k; simpl; auto. apply IHd. lia. Qed.
Lemma nth_pconst {S} d (x : S) k z : (k < d)%nat -> nth k (plist d (pconst d x)) z = x.
Proof. revert k; induction d; intros k Hk; [lia|]. destruct k; simpl; auto. apply IHd. lia. Qed.

Lemma mod_tracks_scalar : rel_mod (ov2 := VOps_fun R) (tracks y) (tracks y).
Proof.
  split; intros.
  - apply tracks_const.
  - now apply tracks_add.
  - now apply tracks_mul.
Qed.
Lemma mod_tracks_point d : rel_mod (ov2 := VOps_fun (point R d)) (tracks y) (tracks_point y d).
Proof.
  split.
  - intros k Hk. eapply tracks_ext; [|cbn; rewrite nth_pconst by auto; apply tracks_const].
    intros y'. cbn. now rewrite nth_pconst by auto.
  - intros a b a' b' Ha Hb k Hk. cbn. rewrite nth_pmap2 by auto.
    eapply tracks_ext; [|apply (tracks_add _ _ _ _ (Ha k Hk) (Hb k Hk))]. intros y'. cbn. now rewrite nth_pmap2 by auto.
  - intros c a c' a' Hc Ha k Hk. cbn. rewrite nth_pmap by auto.
    eapply tracks_ext; [|apply (tracks_mul _ _ _ _ (Ha k Hk) Hc)]. intros y'. cbn. now rewrite nth_pmap by auto.
Qed.

Lemma F2_map_seq {A B} (P : A -> B -> Prop) (l : list A) (f : nat -> B) z :
  (forall i, (i < length l)%nat -> P (nth i l z) (f i)) -> Forall2 P l (map f (seq 0 (length l))).
Proof.
  revert f; induction l; intros f H; simpl; constructor.
  - apply (H 0%nat). simpl; lia.
  - rewrite <- seq_shift, map_map. apply IHl. intros i Hi. apply (H (S i)). simpl; lia.
Qed.
Lemma F2_at {A} y' (l : list (list R -> A)) : Forall2 (at_point y') l (map (fun f => f y') l).
Proof. induction l; simpl; constructor; auto. reflexivity. Qed.
Lemma nth_map_seq {B} (f : nat -> B) n i z : (i < n)%nat -> nth i (map f (seq 0 n)) z = f i.
Proof. intros. rewrite (nth_indep _ z (f 0%nat)) by now rewrite map_length, seq_length. rewrite map_nth, seq_nth by auto. reflexivity. Qed.

Section Eval.
Context {V1 V : Type} {ov1 : VOps (adt R) V1} {ov : VOps R V} {M : VMod R V} (RV : V1 -> (list R -> V) -> Prop).
Context (HV : rel_mod (ov2 := VOps_fun V) (tracks y) RV).

(** Both evaluation algorithms: results that track the textbook value. *)
Lemma eval_tracks (z : V1) (s : spline V1) (xs : list (adt R)) (fc : nat -> list R -> V) (fx : nat -> list R -> R)
  (ev1 : spline V1 -> list (adt R) -> res V1) (evF : spline (list R -> V) -> list (list R -> R) -> res (list R -> V))
  (ev : spline V -> list R -> res V) :
  (forall s s' xs xs', srel RV s s' -> Forall2 (tracks y) xs xs' -> rres RV (ev1 s xs) (evF s' xs')) ->
  (forall y' s s' xs xs', srel (at_point y') s s' -> Forall2 (at_point y') xs xs' -> rres (at_point y') (evF s xs) (ev s' xs')) ->
  (forall s' xs', wf s' -> degrees s' = degrees s -> length xs' = length (degrees s') ->
     ev s' xs' = Ok (bezier (degrees s') xs' (fun i => nth i (control_points s') v0))) ->
  wf s -> length xs = length (degrees s) ->
  (forall i, (i < length (control_points s))%nat -> RV (nth i (control_points s) z) (fc i)) ->
  (forall k, (k < length xs)%nat -> tracks y (nth k xs (AD_constant n 0)) (fx k)) ->
  exists a F, ev1 s xs = Ok a /\ RV a F /\
    forall y', F y' = bezier (degrees s) (map (fun k => fx k y') (seq 0 (length xs))) (fun i => fc i y').
Proof.
  intros H1 H2 H3 HW HL Hc Hx. destruct HW as (W1 & W2 & W3 & W4).
  set (fcs := map fc (seq 0 (length (control_points s)))). set (fxs := map fx (seq 0 (length xs))).
  set (sF := mkSpline (degrees s) (number_of_control_points s) (index_offsets s) fcs).
  assert (K1 : rres RV (ev1 s xs) (evF sF fxs)).
  { apply H1; [|eapply F2_map_seq; exact Hx]. split; auto. simpl. eapply F2_map_seq; exact Hc. }
  set (sR := fun y' : list R => mkSpline (degrees s) (number_of_control_points s) (index_offsets s) (map (fun f => f y') fcs)).
  assert (K2 : forall y', rres (at_point y') (evF sF fxs) (ev (sR y') (map (fun f => f y') fxs))).
  { intros y'. apply H2; [|apply F2_at]. split; auto. apply F2_at. }
  assert (K3 : forall y', ev (sR y') (map (fun f => f y') fxs) =
    Ok (bezier (degrees s) (map (fun k => fx k y') (seq 0 (length xs))) (fun i => fc i y'))).
  { intros y'. rewrite H3; auto.
    - f_equal. simpl. unfold fxs. rewrite map_map. apply bezier_ext. intros i Hi. unfold fcs. rewrite map_map.
      apply (nth_map_seq (fun x => fc x y')). lia.
    - repeat split; auto. simpl. unfold fcs. now rewrite !map_length, seq_length.
    - simpl. unfold fxs. now rewrite !map_length, seq_length. }
  destruct (evF sF fxs) as [F| | | | |].
  2-6: specialize (K2 y); rewrite K3 in K2; contradiction.
  destruct (ev1 s xs) as [a| | | | |]; try contradiction. exists a, F. split; auto. split; auto.
  intros y'. specialize (K2 y'). rewrite K3 in K2. exact K2.
Qed.
End Eval.
End Ops.

Lemma c67_evaluate : forall (y : list R) (d : nat) (s : spline (point (adt R) d)) (xs : list (adt R))
  (fc : nat -> list R -> point R d) (fx : nat -> list R -> R),
  wf s -> length xs = length (degrees s) ->
  (forall i p, nth_error (control_points s) i = Some p -> tracks_point y d p (fc i)) ->
  (forall k x, nth_error xs k = Some x -> tracks y x (fx k)) ->
  exists a, Evaluate_AD (length y) s xs = Ok a /\
    tracks_point y d a (fun y' => bezier (degrees s) (map (fun k => fx k y') (seq 0 (length xs))) (fun i => fc i y')).
Proof.
  intros y d s xs fc fx HW HL Hc Hx.
  destruct (eval_tracks y (tracks_point y d) (pconst d (AD_constant 0 0)) s xs fc fx
    (Evaluate_AD (length y))
    (Evaluate (o := SOps_fun y) (ov := VOps_fun y (point R d))) Evaluate) as (a & F & E & H & K).
  - intros. apply (Evaluate_rel (o1 := SOps_AD (length y)) (o2 := SOps_fun y) (ov1 := VOps_point (adt R) d (o := SOps_AD (length y))) (ov2 := VOps_fun y (point R d)) (tracks y) (tracks_point y d));
      auto. apply ring_tracks. apply mod_tracks_point.
  - intros. apply (Evaluate_rel (o1 := SOps_fun y) (ov1 := VOps_fun y (point R d)) (at_point y') (at_point y')); auto.
    apply ring_at. apply mod_at.
  - intros. apply c09_evaluate; try typeclasses eauto; auto.
  - auto.
  - auto.
  - intros i Hi. apply Hc. apply nth_error_nth'; auto.
  - intros k Hk. apply Hx. apply nth_error_nth'; auto.
  - exists a. split; auto. intros k Hk. eapply tracks_ext; [|apply H; auto]. intros y'. cbv beta. now rewrite K.
Qed.

Lemma c67_evaluate_scalar : forall (y : list R) (s : spline (adt R)) (xs : list (adt R))
  (fc fx : nat -> list R -> R),
  wf s -> length xs = length (degrees s) ->
  (forall i c, nth_error (control_points s) i = Some c -> tracks y c (fc i)) ->
  (forall k x, nth_error xs k = Some x -> tracks y x (fx k)) ->
  exists a, Evaluate_AD_s (length y) s xs = Ok a /\
    tracks y a (fun y' => bezier (degrees s) (map (fun k => fx k y') (seq 0 (length xs))) (fun i => fc i y')).
Proof.
  intros y s xs fc fx HW HL Hc Hx.
  destruct (eval_tracks y (tracks y) (AD_constant 0 0) s xs fc fx
    (Evaluate_AD_s (length y))
    (Evaluate (o := SOps_fun y) (ov := VOps_fun y R)) Evaluate) as (a & F & E & H & K).
  - intros. apply (Evaluate_rel (o1 := SOps_AD (length y)) (o2 := SOps_fun y) (ov1 := VOps_scalar (adt R) (o := SOps_AD (length y))) (ov2 := VOps_fun y R) (tracks y) (tracks y));
      auto. apply ring_tracks. apply mod_tracks_scalar.
  - intros. apply (Evaluate_rel (o1 := SOps_fun y) (ov1 := VOps_fun y R) (at_point y') (at_point y')); auto.
    apply ring_at. apply mod_at.
  - intros. apply c09_evaluate; try typeclasses eauto; auto.
  - auto.
  - auto.
  - intros i Hi. apply Hc. apply nth_error_nth'; auto.
  - intros k Hk. apply Hx. apply nth_error_nth'; auto.
  - exists a. split; auto. eapply tracks_ext; [|apply H; auto]. intros y'. apply K.
Qed.

Lemma c67_forward_evaluate : forall (y : list R) (MAXB : nat) (s : spline (adt R)) (xs : list (adt R))
  (fc fx : nat -> list R -> R), (MAXB <= 68)%nat ->
  wf s -> length xs = length (degrees s) -> Forall (fun p => p < MAXB)%nat (degrees s) ->
  (forall i c, nth_error (control_points s) i = Some c -> tracks y c (fc i)) ->
  (forall k x, nth_error xs k = Some x -> tracks y x (fx k)) ->
  exists a, ForwardEvaluate_AD_s (length y) MAXB s xs = Ok a /\
    tracks y a (fun y' => bezier (degrees s) (map (fun k => fx k y') (seq 0 (length xs))) (fun i => fc i y')).
Proof.
  intros y MAXB s xs fc fx HB HW HL HD Hc Hx.
  destruct (eval_tracks y (tracks y) (AD_constant 0 0) s xs fc fx
    (ForwardEvaluate_AD_s (length y) MAXB)
    (ForwardEvaluate (o := SOps_fun y) (ov := VOps_fun y R) MAXB) (ForwardEvaluate MAXB)) as (a & F & E & H & K).
  - intros. apply (ForwardEvaluate_rel (o1 := SOps_AD (length y)) (o2 := SOps_fun y) (ov1 := VOps_scalar (adt R) (o := SOps_AD (length y))) (ov2 := VOps_fun y R) (tracks y) (tracks y));
      auto. apply ring_tracks. apply mod_tracks_scalar.
  - intros. apply (ForwardEvaluate_rel (o1 := SOps_fun y) (ov1 := VOps_fun y R) (at_point y') (at_point y')); auto.
    apply ring_at. apply mod_at.
  - intros s' xs' W' D' L'. destruct (c10_forward_evaluate R R _ _ _ _ MAXB s' xs' HB W' L') as (-> & _).
    now rewrite D'. apply c09_evaluate; try typeclasses eauto; auto.
  - auto.
  - auto.
  - intros i Hi. apply Hc. apply nth_error_nth'; auto.
  - intros k Hk. apply Hx. apply nth_error_nth'; auto.
  - exists a. split; auto. eapply tracks_ext; [|apply H; auto]. intros y'. apply K.
Qed.

Lemma c67_rational : forall (y : list R) (d : nat) (r : rspline (adt R) (point (adt R) d)) (xs : list (adt R))
  (fc : nat -> list R -> point R d) (fw fx : nat -> list R -> R),
  rwf r -> length xs = length (rdegrees r) ->
  (forall i p, nth_error (control_points (weighted_spline r)) i = Some p -> tracks_point y d p (fc i)) ->
  (forall i w, nth_error (control_points (weight_function r)) i = Some w -> tracks y w (fw i)) ->
  (forall k x, nth_error xs k = Some x -> tracks y x (fx k)) ->
  let numerator := fun y' => bezier (rdegrees r) (map (fun k => fx k y') (seq 0 (length xs))) (fun i => fc i y') in
  let denominator := fun y' => bezier (rdegrees r) (map (fun k => fx k y') (seq 0 (length xs))) (fun i => fw i y') in
  (denominator y <> 0 -> exists a, R_Evaluate_AD (length y) r xs = Ok a /\
     tracks_point y d a (fun y' => vscale (1 / denominator y') (numerator y'))) /\
  (denominator y = 0 -> R_Evaluate_AD (length y) r xs = NonFinite).
Proof.
  intros y d r xs fc fw fx (W1 & W2 & W3) HL Hc Hw Hx num den.
  destruct (c67_evaluate y d (weighted_spline r) xs fc fx W1 HL Hc Hx) as (a & Ea & Ta).
  destruct (c67_evaluate_scalar y (weight_function r) xs fw fx W2) as (w & Ew & Tw); auto. { now rewrite W3. }
  rewrite W3 in Tw.
  change (tracks y w den) in Tw. change (tracks_point y d a num) in Ta.
  unfold R_Evaluate_AD, R_Evaluate. unfold Evaluate_AD in Ea. unfold Evaluate_AD_s in Ew. rewrite Ea. cbn [bind].
  rewrite Ew. cbn [bind]. unfold vdiv, divS.
  assert (Hz : @seqb (adt R) (SOps_AD (length y)) w (@s0 (adt R) (SOps_AD (length y))) = eqb (den y) 0).
  { cbn. unfold AD_eq. destruct Tw as (-> & _). reflexivity. }
  split; intros HN.
  - rewrite Hz. unfold eqb. destruct (Req_EM_T (den y) 0); [contradiction|]. cbn [bind]. eexists. split; [reflexivity|].
    pose proof (tracks_div y _ _ _ _ HN (tracks_const y 1) Tw) as Ti.
    apply (rm_scale _ _ (mod_tracks_point y d)); [exact Ti|exact Ta].
  - rewrite Hz, HN. unfold eqb. destruct (Req_EM_T 0 0); [reflexivity|congruence].
Qed.

(** Parameters as inputs: the derivatives are those EvaluateDerivative returns. *)
Lemma c67_parameters : forall (MAXB d : nat) (s : spline (point R d)) (sa : spline (point (adt R) d)) (y : list R)
  (xs : list (adt R)),
  (MAXB <= 68)%nat -> wf s -> length y = length (degrees s) -> Forall (fun p => p < MAXB)%nat (degrees s) ->
  (forall k x, nth_error xs k = Some x -> AD_input (length y) (nth k y 0) k = Ok x) -> length xs = length y ->
  wf sa -> degrees sa = degrees s ->
  (forall i p q, nth_error (control_points sa) i = Some p -> nth_error (control_points s) i = Some q ->
     plist d p = map (AD_constant (length y)) (plist d q)) ->
  exists a v, Evaluate_AD (length y) sa xs = Ok a /\ Evaluate s y = Ok v /\
    forall c, (c < d)%nat ->
      let ac := nth c (plist d a) (AD_constant (length y) 0) in
      ad_v ac = nth c (plist d v) 0 /\
      forall k, (k < length y)%nat -> exists g,
        EvaluateDerivative MAXB s y (upd_list (repeat 0%nat (length y)) k 1%nat) = Ok g /\
        nth k (ad_d ac) 0 = nth c (plist d g) 0.
Proof.
  intros MAXB d s sa y xs HB HW HY HD HX HL HWa HDa HC.
  assert (HXT : forall k x, nth_error xs k = Some x -> tracks y x (fun y' => nth k y' 0)).
  { intros k x E. assert (K : (k < length y)%nat) by (rewrite <- HL; apply nth_error_Some; congruence).
    destruct (tracks_input y k K) as (x' & E' & T'). specialize (HX k x E). congruence. }
  assert (Hc : forall i p, nth_error (control_points sa) i = Some p ->
    tracks_point y d p (fun _ => nth i (control_points s) v0)).
  { intros i p E k Hk.
    assert (I : (i < length (control_points s))%nat).
    { destruct HW as (_ & _ & _ & ->). destruct HWa as (_ & _ & _ & W). rewrite HDa in W. rewrite <- W.
      apply nth_error_Some. congruence. }
    rewrite (HC i p _ E (nth_error_nth' _ v0 I)). rewrite map_nth. apply tracks_const. }
  destruct (c67_evaluate y d sa xs (fun i (_ : list R) => nth i (control_points s) (v0 : point R d))
    (fun k y' => nth k y' 0) HWa) as (a & Ea & Ta); auto. { now rewrite HL, HDa. }
  exists a, (bezier (degrees s) y (fun i => nth i (control_points s) v0)).
  split; auto. split; [apply c09_evaluate; try typeclasses eauto; auto|].
  assert (Hmap : forall y' : list R, length y' = length y -> map (fun k => nth k y' 0) (seq 0 (length xs)) = y').
  { intros y' L. rewrite HL, <- L. clear. induction y'; simpl; auto. f_equal. rewrite <- seq_shift, map_map. apply IHy'. }
  rewrite HDa in Ta.
  intros c Hcd. specialize (Ta c Hcd). destruct Ta as (T1 & T2 & T3). cbv zeta.
  split; [rewrite T1; now rewrite Hmap|].
  intros k Hk. specialize (T3 k Hk).
  set (orders := upd_list (repeat 0%nat (length y)) k 1%nat).
  assert (LO : length orders = length (degrees s)) by (unfold orders; now rewrite length_upd, repeat_length).
  destruct (c15_derivative (point R d) _ _ MAXB s orders HB HW LO HD) as (f & g & Hfg & Hm).
  exists (g y). split; [apply Hfg; auto|].
  assert (LF : linear_form (fun p : point R d => nth c (plist d p) 0)).
  { split; intros; cbn.
    - now rewrite nth_pmap2.
    - rewrite nth_pmap by auto. ring. }
  specialize (Hm _ [k] LF). destruct Hm as (f' & P1 & P2).
  { split; [constructor; auto; rewrite LO; lia|]. intros j Hj. unfold orders in *. rewrite length_upd, repeat_length in Hj.
    rewrite nth_upd by now rewrite repeat_length. simpl.
    destruct (Nat.eq_dec k j), (Nat.eqb_spec j k); try congruence; try lia. now rewrite nth_repeat. }
  rewrite <- P2 by auto. specialize (P1 y HY).
  eapply uniqueness_limite; [exact T3|]. eapply dl_ext; [|exact P1]. intros t. cbv beta.
  rewrite Hmap by now rewrite length_upd. f_equal. f_equal.
  assert (L' : length (upd_list y k t) = length (degrees s)) by now rewrite length_upd.
  destruct (Hfg _ L') as (E & _). rewrite c09_evaluate in E; try typeclasses eauto; auto. congruence.
Qed.

(** Control points as inputs: the derivatives are the basis functions. *)
Lemma c67_control_points : forall (MAXB : nat) (s : spline R) (sa : spline (adt R)) (ts : list R),
  (MAXB <= 68)%nat -> wf s -> length ts = length (degrees s) -> Forall (fun p => p < MAXB)%nat (degrees s) ->
  wf sa -> degrees sa = degrees s ->
  (forall i c, nth_error (control_points sa) i = Some c ->
     AD_input (length (control_points s)) (nth i (control_points s) 0) i = Ok c) ->
  exists a v bs, Evaluate_AD_s (length (control_points s)) sa (map (AD_constant (length (control_points s))) ts) = Ok a /\
    Evaluate s ts = Ok v /\ BasisFunctions MAXB s ts = Ok bs /\ ad_v a = v /\ ad_d a = bs.
Proof.
  intros MAXB s sa ts HB HW HT HD HWa HDa HC.
  set (y := control_points s) in *.
  destruct (c67_evaluate_scalar y sa (map (AD_constant (length y)) ts) (fun i y' => nth i y' 0) (fun k _ => nth k ts 0)) as (a & Ea & Ta).
  - auto.
  - now rewrite map_length, HDa.
  - intros i c E. assert (I : (i < length y)%nat).
    { unfold y. destruct HW as (_ & _ & _ & ->). destruct HWa as (_ & _ & _ & W). rewrite HDa in W. rewrite <- W.
      apply nth_error_Some. congruence. }
    destruct (tracks_input y i I) as (c' & E' & T'). specialize (HC i c E). congruence.
  - intros k x E. assert (K : (k < length ts)%nat). { rewrite <- (map_length (AD_constant (length y))). apply nth_error_Some. congruence. }
    rewrite nth_error_map, (nth_error_nth' ts 0 K) in E. injection E as <-. apply tracks_const.
  - assert (Hmap : map (fun k => nth k ts 0) (seq 0 (length ts)) = ts).
    { clear. induction ts; simpl; auto. f_equal. rewrite <- seq_shift, map_map. apply IHts. }
    rewrite map_length in Ta. rewrite HDa in Ta. rewrite Hmap in Ta.
    exists a, (bezier (degrees s) ts (fun i => nth i y 0)), (map (basis_at (degrees s) ts) (seq 0 (n_coeffs (degrees s)))).
    split; auto. split; [apply c09_evaluate; try typeclasses eauto; auto|].
    split; [apply (BasisFunctions_ok MAXB HB); auto|].
    destruct Ta as (T1 & T2 & T3). split; auto.
    assert (HY : length y = n_coeffs (degrees s)) by apply HW.
    apply (nth_ext _ _ 0 0); [now rewrite map_length, seq_length, T2|].
    intros i Hi. rewrite T2 in Hi. rewrite nth_map_seq by lia. specialize (T3 i Hi).
    eapply uniqueness_limite; [exact T3|].
    eapply dl_ext. { intros t. symmetry. apply bezier_flat; auto. }
    assert (G : forall m, derivable_pt_lim (fun t => vsum m (fun j => vscale (basis_at (degrees s) ts j) (nth j (upd_list y i t) 0))) (nth i y 0)
      (if (i <? m)%nat then basis_at (degrees s) ts i else 0)).
    { induction m; cbn [vsum]. { apply dl_const. }
      change (derivable_pt_lim (fun t => vsum m (fun j => vscale (basis_at (degrees s) ts j) (nth j (upd_list y i t) 0)) +
        basis_at (degrees s) ts m * nth m (upd_list y i t) 0) (nth i y 0) (if (i <? S m)%nat then basis_at (degrees s) ts i else 0)).
      destruct (Nat.eq_dec i m) as [<-|N].
      - eapply dl_eq; [|apply dl_plus; [exact IHm|]].
        2:{ eapply dl_ext; [|apply (dl_mult (fun _ => basis_at (degrees s) ts i) (fun t => t)); [apply dl_const|apply dl_id]].
            intros t. cbv beta. rewrite nth_upd by auto. now rewrite Nat.eqb_refl. }
        rewrite (proj2 (Nat.ltb_lt i (S i))), (proj2 (Nat.ltb_ge i i)) by lia. ring.
      - eapply dl_eq; [|apply dl_plus; [exact IHm|]].
        2:{ eapply dl_ext; [|apply (dl_const (basis_at (degrees s) ts m * nth m y 0))].
            intros t. cbv beta. rewrite nth_upd by auto. destruct (Nat.eqb_spec m i); congruence. }
        destruct (Nat.ltb_spec i m), (Nat.ltb_spec i (S m)); try lia; ring. }
    specialize (G (n_coeffs (degrees s))). rewrite (proj2 (Nat.ltb_lt _ _)) in G by lia. exact G.
Qed.
