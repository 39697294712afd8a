(** Claims about the laws of composition. *)
From Coq Require Import Arith Lia List ZArith NArith Bool Ring Field.
From Verif Require Import Prelude Scalar Spec SpecSpline Sums Order Coord ModelBasis ModelSpline ModelPoint
  ModelRational ProofIndex ProofBasis ProofEval ProofElevate ProofUnique ClaimsA ProofArith ClaimsB ProofCube ClaimsC
  ProofMul ProofSplit ClaimsD ProofCompose ClaimsE ProofLaws ClaimsV SpecReal SpecLaws ProofLawsReal SpecHull ProofHull ClaimsX.
Import ListNotations.
Local Open Scope nat_scope.

Lemma list_sum_mul a D : list_sum (map (Nat.mul a) D) = a * list_sum D.
Proof. induction D as [|x D IH]; cbn [map list_sum fold_right]; [lia|]. fold (list_sum (map (Nat.mul a) D)) (list_sum D). lia. Qed.

Lemma list_sum_add D : forall E, length E = length D -> list_sum (map2 Nat.add D E) = list_sum D + list_sum E.
Proof.
  induction D as [|x D IH]; intros [|y E] HL; try discriminate; auto. cbn [map2 list_sum fold_right].
  fold (list_sum (map2 Nat.add D E)) (list_sum D) (list_sum E). rewrite IH by auto. lia.
Qed.

(** Convex combinations of points of the unit cube lie in the unit cube. *)
Lemma convex_unit {T} {o : SOps T} {F : SField T} {O : SOrder T} d (s r : spline (point T d)) :
  (forall p k, In p (control_points s) -> k < d -> in_unit (coord _ p k)) ->
  Forall (convex (T := T) (control_points s)) (control_points r) ->
  forall p k, In p (control_points r) -> k < d -> in_unit (coord _ p k).
Proof.
  intros HC HX p k Hp Hk. rewrite Forall_forall in HX.
  apply (c76_bounds T o F O d k (control_points s) p s0 s1 Hk (HX p Hp)). intros q Hq. apply (HC q k Hq Hk).
Qed.

(** ** C77 *)
Lemma c77_associative : forall (T V : Type) (o : SOps T) (ov : VOps T V) (F : SField T) (M : VMod T V) (O : SOrder T)
  (MAXB : nat) (f : spline V) (g : spline (point T (length (degrees f)))) (h : spline (point T (length (degrees g)))),
  MAXB <= 68 -> wf f -> wf g -> wf h ->
  (forall p k, In p (control_points g) -> k < length (degrees f) -> in_unit (coord _ p k)) ->
  (forall p k, In p (control_points h) -> k < length (degrees g) -> in_unit (coord _ p k)) ->
  Forall (fun p => p < MAXB) (degrees f) -> Forall (fun p => p < MAXB) (degrees g) ->
  Forall (fun p => list_sum (degrees f) * p < MAXB) (degrees g) ->
  Forall (fun p => list_sum (degrees g) * p < MAXB) (degrees h) ->
  Forall (fun p => list_sum (degrees f) * list_sum (degrees g) * p < MAXB) (degrees h) ->
  exists fg gh r, Compose MAXB f g = Ok fg /\ Compose MAXB g h = Ok gh /\
    Compose MAXB fg h = Ok r /\ Compose MAXB f gh = Ok r.
Proof.
  intros T V o ov F M O MAXB f g h HB Hf Hg Hh Cg Ch B1 B2 B3 B4 B5.
  pose proof (isv_self f Hf) as If. pose proof (isv_self g Hg) as Ig. pose proof (isv_self h Hh) as Ih.
  destruct (compose_isv MAXB _ f g _ _ _ _ HB If Ig eq_refl Cg B3 B1) as (fg & E1 & I1).
  destruct (compose_isv MAXB _ g h _ _ _ _ HB Ig Ih eq_refl Ch B4 B2) as (gh & E2 & I2).
  destruct (c76_compose T _ o _ F _ O MAXB g h HB Hg Hh Ch B4 B2) as (gh' & ts & E2' & _ & Hull & _).
  rewrite E2 in E2'. injection E2' as <-. pose proof (convex_unit _ g gh Cg Hull) as Cgh.
  destruct (compose_isv MAXB _ fg h _ _ _ _ HB I1 Ih) as (r & E3 & I3).
  { now rewrite map_length. } { exact Ch. }
  { rewrite list_sum_mul. exact B5. } { rewrite Forall_map. exact B3. }
  destruct (compose_isv MAXB _ f gh _ _ _ _ HB If I2 eq_refl Cgh) as (r' & E4 & I4).
  { rewrite Forall_map. eapply Forall_impl; [|exact B5]. intros p Hp. cbv beta in *. lia. } { exact B1. }
  exists fg, gh, r. do 3 (split; auto). rewrite E4. f_equal.
  eapply isv_unique; [exact I4| |].
  - eapply isv_ext; [exact I3| |reflexivity]. rewrite list_sum_mul, map_map. apply map_ext. intros. lia.
  - reflexivity.
Qed.

(** Sums of outer splines of equal degrees, and scaling. *)
Lemma c77_linear : forall (T V : Type) (o : SOps T) (ov : VOps T V) (F : SField T) (M : VMod T V) (O : SOrder T)
  (MAXB : nat) (a b : spline V) (inner : spline (point T (length (degrees a)))) (c : T),
  MAXB <= 68 -> wf a -> wf b -> wf inner -> degrees b = degrees a ->
  (forall p k, In p (control_points inner) -> k < length (degrees a) -> in_unit (coord _ p k)) ->
  Forall (fun p => list_sum (degrees a) * p < MAXB) (degrees inner) -> Forall (fun p => p < MAXB) (degrees a) ->
  (Z.of_nat (n_coeffs (degrees a)) < 2 ^ 31)%Z ->
  (Z.of_nat (n_coeffs (map (Nat.mul (list_sum (degrees a))) (degrees inner))) < 2 ^ 31)%Z ->
  exists ab ca ai bi r cr, returns (fun fuel => spline_add (T := T) fuel a b) ab /\ spline_scale a c = Ok ca /\
    Compose MAXB a inner = Ok ai /\ Compose MAXB b inner = Ok bi /\
    returns (fun fuel => spline_add (T := T) fuel ai bi) r /\ Compose MAXB ab inner = Ok r /\
    spline_scale ai c = Ok cr /\ Compose MAXB ca inner = Ok cr.
Proof.
  intros T V o ov F M O MAXB a b inner c HB Ha Hb Hi ED HC HF HM HZ HZ'.
  pose proof (isv_self a Ha) as Ia. pose proof (isv_self b Hb) as Ib. pose proof (isv_self inner Hi) as Ii. rewrite ED in Ib.
  destruct (add_isv a b _ _ _ _ Ia Ib eq_refl) as (ab & E1 & I1); [now rewrite map2_max_same|]. rewrite map2_max_same in I1.
  destruct (scale_isv c a _ _ Ia) as (ca & E2 & I2).
  destruct (compose_isv MAXB _ a inner _ _ _ _ HB Ia Ii eq_refl HC HF HM) as (ai & E3 & I3).
  destruct (compose_isv MAXB _ b inner _ _ _ _ HB Ib Ii eq_refl HC HF HM) as (bi & E4 & I4).
  destruct (add_isv ai bi _ _ _ _ I3 I4 eq_refl) as (r & E5 & I5); [now rewrite map2_max_same|]. rewrite map2_max_same in I5.
  destruct (compose_isv MAXB _ ab inner _ _ _ _ HB I1 Ii eq_refl HC HF HM) as (r' & E6 & I6).
  destruct (scale_isv c ai _ _ I3) as (cr & E7 & I7).
  destruct (compose_isv MAXB _ ca inner _ _ _ _ HB I2 Ii eq_refl HC HF HM) as (cr' & E8 & I8).
  exists ab, ca, ai, bi, r, cr. do 5 (split; auto). split; [|split; auto].
  - rewrite E6. f_equal. eapply isv_unique; [exact I6|exact I5|reflexivity].
  - rewrite E8. f_equal. eapply isv_unique; [exact I8|exact I7|reflexivity].
Qed.

(** Products and powers of the outer spline. *)
Lemma c77_product : forall (T V : Type) (o : SOps T) (ov : VOps T V) (F : SField T) (M : VMod T V) (O : SOrder T)
  (MAXB : nat) (a : spline T) (b : spline V) (inner : spline (point T (length (degrees a)))) (n : nat),
  MAXB <= 68 -> wf a -> wf b -> wf inner -> length (degrees b) = length (degrees a) ->
  (forall p k, In p (control_points inner) -> k < length (degrees a) -> in_unit (coord _ p k)) ->
  (Forall (fun p => p < MAXB) (map2 Nat.add (degrees a) (degrees b)) ->
   Forall (fun p => (list_sum (degrees a) + list_sum (degrees b)) * p < MAXB) (degrees inner) ->
   exists ab ai bi r, spline_mul_sv MAXB a b = Ok ab /\ Compose MAXB a inner = Ok ai /\ Compose MAXB b inner = Ok bi /\
     spline_mul_sv MAXB ai bi = Ok r /\ Compose MAXB ab inner = Ok r) /\
  (0 < n -> Forall (fun p => n * p < MAXB) (degrees a) ->
   Forall (fun p => n * list_sum (degrees a) * p < MAXB) (degrees inner) ->
   exists an ai r, RaisePower MAXB a n = Ok an /\ Compose MAXB a inner = Ok ai /\
     RaisePower MAXB ai n = Ok r /\ Compose MAXB an inner = Ok r).
Proof.
  intros T V o ov F M O MAXB a b inner n HB Ha Hb Hi HL HC.
  pose proof (isv_self a Ha) as Ia. pose proof (isv_self b Hb) as Ib. pose proof (isv_self inner Hi) as Ii.
  split.
  - intros HM HF.
    assert (HMa : Forall (fun p => p < MAXB) (degrees a)) by (eapply Forall_le_lt; [|exact HM]; apply add_le_l; auto).
    assert (HMb : Forall (fun p => p < MAXB) (degrees b)).
    { eapply Forall_le_lt; [|exact HM]. rewrite map2_add_comm. apply add_le_l; auto. }
    destruct (mul_isv (fun c p => vscale c p) MAXB a b _ _ _ _ HB Ia Ib HL HM) as (ab & E1 & I1).
    destruct (compose_isv MAXB _ a inner _ _ _ _ HB Ia Ii eq_refl HC) as (ai & E2 & I2); auto.
    { eapply Forall_impl; [|exact HF]. intros p Hp. cbv beta in *. nia. }
    destruct (compose_isv MAXB _ b inner _ _ _ _ HB Ib Ii HL HC) as (bi & E3 & I3); auto.
    { eapply Forall_impl; [|exact HF]. intros p Hp. cbv beta in *. nia. }
    destruct (mul_isv (fun c p => vscale c p) MAXB ai bi _ _ _ _ HB I2 I3) as (r & E4 & I4).
    { now rewrite !map_length. }
    { rewrite (map2_add_mul 68 (le_n _)), Forall_map. exact HF. }
    destruct (compose_isv MAXB _ ab inner _ _ _ _ HB I1 Ii) as (r' & E5 & I5); auto.
    { rewrite length_map2_add by auto. reflexivity. }
    { rewrite list_sum_add by auto. exact HF. }
    exists ab, ai, bi, r. do 4 (split; auto). rewrite E5. f_equal. eapply isv_unique; [exact I5| |reflexivity].
    eapply isv_ext; [exact I4| |reflexivity]. rewrite (map2_add_mul 68 (le_n _)). now rewrite list_sum_add by auto.
  - intros Hn HM HF.
    assert (HMa : Forall (fun p => p < MAXB) (degrees a)) by (eapply Forall_impl; [|exact HM]; intros p Hp; cbv beta in *; nia).
    destruct (power_isv MAXB a _ _ n HB Ia HM) as (an & E1 & I1).
    destruct (compose_isv MAXB _ a inner _ _ _ _ HB Ia Ii eq_refl HC) as (ai & E2 & I2); auto.
    { eapply Forall_impl; [|exact HF]. intros p Hp. cbv beta in *. nia. }
    destruct (power_isv MAXB ai _ _ n HB I2) as (r & E3 & I3).
    { rewrite Forall_map. eapply Forall_impl; [|exact HF]. intros p Hp. cbv beta in *. nia. }
    destruct (compose_isv MAXB _ an inner _ _ _ _ HB I1 Ii) as (r' & E4 & I4); auto.
    { now rewrite map_length. } { rewrite list_sum_mul. exact HF. } { rewrite Forall_map. exact HM. }
    exists an, ai, r. do 3 (split; auto). rewrite E4. f_equal. eapply isv_unique; [exact I4| |reflexivity].
    eapply isv_ext; [exact I3| |reflexivity]. rewrite list_sum_mul, map_map. apply map_ext. intros. lia.
Qed.

(** One coordinate of the composition is the composition of that coordinate. *)
Lemma c77_extract : forall (T : Type) (o : SOps T) (F : SField T) (O : SOrder T) (MAXB d k : nat)
  (outer : spline (point T d)) (inner : spline (point T (length (degrees outer)))),
  MAXB <= 68 -> wf outer -> wf inner -> k < d ->
  (forall p k, In p (control_points inner) -> k < length (degrees outer) -> in_unit (coord _ p k)) ->
  Forall (fun p => list_sum (degrees outer) * p < MAXB) (degrees inner) -> Forall (fun p => p < MAXB) (degrees outer) ->
  exists ok r rk, ExtractDimension outer k = Ok ok /\ Compose MAXB outer inner = Ok r /\
    ExtractDimension r k = Ok rk /\ Compose MAXB ok inner = Ok rk.
Proof.
  intros T o F O MAXB d k outer inner HB Ho Hi Hk HC HF HM.
  pose proof (isv_self outer Ho) as Io. pose proof (isv_self inner Hi) as Ii.
  destruct (extract_isv outer _ _ k Io Hk) as (ok & E1 & I1).
  destruct (compose_isv MAXB _ outer inner _ _ _ _ HB Io Ii eq_refl HC HF HM) as (r & E2 & I2).
  destruct (extract_isv r _ _ k I2 Hk) as (rk & E3 & I3).
  destruct (compose_isv MAXB _ ok inner _ _ _ _ HB I1 Ii eq_refl HC HF HM) as (rk' & E4 & I4).
  exists ok, r, rk. do 3 (split; auto). rewrite E4. f_equal. eapply isv_unique; [exact I4|exact I3|reflexivity].
Qed.

(** Splitting the composition is composing with the parts of the inner spline. *)
Lemma c77_split : forall (T V : Type) (o : SOps T) (ov : VOps T V) (F : SField T) (M : VMod T V) (O : SOrder T)
  (MAXB k : nat) (x : T) (outer : spline V) (inner : spline (point T (length (degrees outer)))),
  MAXB <= 68 -> wf outer -> wf inner -> k < length (degrees inner) -> slt s0 x -> slt x s1 ->
  (forall p k, In p (control_points inner) -> k < length (degrees outer) -> in_unit (coord _ p k)) ->
  Forall (fun p => list_sum (degrees outer) * p < MAXB) (degrees inner) -> Forall (fun p => p < MAXB) (degrees outer) ->
  exists i1 i2 r r1 r2, SplitAtPosition inner x k = Ok [i1; i2] /\ Compose MAXB outer inner = Ok r /\
    SplitAtPosition r x k = Ok [r1; r2] /\ Compose MAXB outer i1 = Ok r1 /\ Compose MAXB outer i2 = Ok r2.
Proof.
  intros T V o ov F M O MAXB k x outer inner HB Ho Hi Hk H0 H1 HC HF HM.
  pose proof (isv_self outer Ho) as Io. pose proof (isv_self inner Hi) as Ii.
  destruct (split_isv inner _ _ x k Ii Hk H0 H1) as (i1 & i2 & E1 & J1 & J2).
  destruct (c76_split T _ o _ F _ O inner [] k Hi Hk) as (_ & Hull).
  { intros i Hx. cbn [length app] in Hx. assert (i = 0) by lia. subst i. apply so_01. }
  destruct (Hull x H0 H1) as (j1 & j2 & E1' & C1 & C2). rewrite E1 in E1'. injection E1' as <- <-.
  destruct (compose_isv MAXB _ outer inner _ _ _ _ HB Io Ii eq_refl HC HF HM) as (r & E2 & I2).
  destruct (split_isv r _ _ x k I2) as (r1 & r2 & E3 & K1 & K2); auto; [now rewrite map_length|].
  destruct (compose_isv MAXB _ outer i1 _ _ _ _ HB Io J1 eq_refl (convex_unit _ inner i1 HC C1) HF HM) as (s1' & E4 & L1).
  destruct (compose_isv MAXB _ outer i2 _ _ _ _ HB Io J2 eq_refl (convex_unit _ inner i2 HC C2) HF HM) as (s2' & E5 & L2).
  exists i1, i2, r, r1, r2. do 3 (split; auto). split.
  - rewrite E4. f_equal. eapply isv_unique; [exact L1|exact K1|reflexivity].
  - rewrite E5. f_equal. eapply isv_unique; [exact L2|exact K2|reflexivity].
Qed.

Section Id.
Context {T : Type} {o : SOps T} {F : SField T}.
Add Field Tfield : (@sf_th T o F).
Definition idspline : spline (point T 1) := mk [1] [(s0, tt); (s1, tt)].
Lemma idspline_isv : isv idspline [1] (fun xs => (nth 0 xs s0, tt) : point T 1).
Proof.
  split; [apply wf_mk; [discriminate|reflexivity]|]. split; [reflexivity|]. intros [|x [|y xs]] HX; try discriminate.
  assert (E : coord 1 (value_at idspline [x]) 0 = x).
  { unfold value_at. rewrite coord_bezier. unfold idspline. cbn [mk degrees control_points].
    rewrite (bezier_single 1 0 [x]) by (auto; lia). unfold coord. cbn [nth plist fst]. ring. }
  destruct (value_at idspline [x]) as (y & []). unfold coord in E. cbn [plist nth fst] in E. subst y. reflexivity.
Qed.
End Id.

(** Composition with the identity: as inner spline of a curve, and as outer spline for one-dimensional points. *)
Lemma c77_identity : forall (T V : Type) (o : SOps T) (ov : VOps T V) (F : SField T) (M : VMod T V) (O : SOrder T)
  (MAXB p : nat) (f : spline V) (g : spline (point T 1)), 1 < MAXB <= 68 ->
  wf f -> degrees f = [p] -> p < MAXB -> wf g -> Forall (fun p => p < MAXB) (degrees g) ->
  (forall q k, In q (control_points g) -> k < 1 -> in_unit (coord _ q k)) ->
  exists id : spline (point T 1), Spline_deg_points [1] [(s0, tt); (s1, tt)] = Ok id /\
    Compose MAXB f id = Ok f /\ Compose MAXB id g = Ok g.
Proof.
  intros T V o ov F M O MAXB p f g (H1 & HB) Hf Df Hp Hg Bg HC. exists idspline. split; [reflexivity|].
  pose proof idspline_isv as Iid. pose proof (isv_self f Hf) as If. rewrite Df in If. pose proof (isv_self g Hg) as Ig.
  destruct (compose_isv MAXB 1 f idspline _ _ _ _ HB If Iid eq_refl) as (r & E & I).
  { intros q k Hq Hk. assert (k = 0) by lia. subst k. cbn [idspline mk control_points] in Hq.
    destruct Hq as [<-|[<-|[]]]; unfold coord; cbn [plist nth fst]; [apply unit_0|apply unit_1]. }
  { cbn. constructor; [lia|constructor]. } { constructor; auto. }
  destruct (compose_isv MAXB 1 idspline g _ _ _ _ HB Iid Ig eq_refl HC) as (r' & E' & I').
  { eapply Forall_impl; [|exact Bg]. intros q Hq. cbn [list_sum fold_right] in *. lia. } { constructor; auto. }
  split.
  - rewrite E. f_equal. eapply isv_unique; [exact I| |].
    + eapply isv_ext; [exact If|cbn [map list_sum fold_right]; f_equal; lia|reflexivity].
    + intros xs HX. cbn [map length] in HX. destruct xs as [|x [|y xs]]; try discriminate. reflexivity.
  - rewrite E'. f_equal. eapply isv_unique; [exact I'| |].
    + eapply isv_ext; [exact Ig| |reflexivity]. cbn [list_sum fold_right Nat.add].
      rewrite (map_ext _ (fun x => x)) by (intros; lia). symmetry. apply map_id.
    + intros xs HX. cbv beta. destruct (value_at g xs) as (y & []). reflexivity.
Qed.
