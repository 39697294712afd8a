(** Claims about derivatives of polynomial splines. *)
From Coq Require Import Arith Lia List ZArith NArith Bool Ring Field Reals Lra.
From Verif Require Import Prelude Scalar Spec SpecSpline SpecReal Sums Coord ModelBasis ModelSpline ModelDerivShape
  ProofIndex ProofBasis ProofEval ProofElevate ProofArith ProofDeriv ProofDerivSpline ProofReal.
Import ListNotations.
Local Open Scope nat_scope.

Lemma c07_derivatives : forall (MAXB p k : nat), MAXB <= 68 -> p < MAXB ->
  exists g : nat -> R -> R,
    (forall x : R, BernsteinEvaluateDerivative MAXB p x k = Ok (map (fun i => g i x) (seq 0 (S p)))) /\
    (forall i, nth_derivative k (bernstein p i) (g i)).
Proof.
  intros MAXB p k HB Hp. exists (dbern k p). split.
  - intros x. apply BernsteinEvaluateDerivative_ok; auto.
  - intros i. generalize (nth_derivative_dbern k 0 p i). rewrite Nat.add_0_r.
    destruct k; cbn [nth_derivative]; [intros H x; symmetry; apply dbern_0|].
    intros (f' & H1 & H2). exists f'. split; auto. intros x. eapply dlim_ext; [intros y; apply dbern_0|reflexivity|apply H1].
Qed.

Lemma c07_zero : forall (T : Type) (o : SOps T) (F : SField T) (MAXB p k : nat) (x : T),
  MAXB <= 68 -> p < MAXB -> p < k -> BernsteinEvaluateDerivative MAXB p x k = Ok (repeat s0 (S p)).
Proof.
  intros T o F MAXB p k x HB Hp Hk. rewrite BernsteinEvaluateDerivative_ok by auto. f_equal.
  apply (list_ext s0); [now rewrite map_length, seq_length, repeat_length|].
  intros i Hi. rewrite map_length, seq_length in Hi. rewrite nth_map_seq, nth_repeat by lia. apply dbern_gt; auto.
Qed.

Lemma mixed_spline {V} {ov : VOps R V} (M : VMod R V) (s : spline V) orders dirs (phi : V -> R) :
  wf s -> length orders = length (degrees s) -> directions_of orders dirs -> linear_form phi ->
  mixed (fun xs => length xs = length (degrees s)) dirs (fun xs => phi (value_at s xs))
    (fun xs => phi (dmbez orders (degrees s) xs (fun mi => nth (position (degrees s) mi) (control_points s) v0))).
Proof.
  intros Hw HL (HD & HC) HP. rewrite HL in *.
  set (G := fun mi => phi (nth (position (degrees s) mi) (control_points s) v0)).
  assert (HE : forall n f f' g g', (forall xs : list R, length xs = n -> f xs = f' xs :> R) ->
    (forall xs : list R, length xs = n -> g xs = g' xs :> R) ->
    mixed (fun xs => length xs = n) dirs f g -> mixed (fun xs => length xs = n) dirs f' g').
  { clear. induction dirs as [|k dirs IH]; intros n f f' g g' H1 H2 HM; cbn [mixed] in *.
    - intros xs HX. rewrite <- H1, <- H2 by auto. auto.
    - destruct HM as (h & HP & HM). exists h. split.
      + intros xs HX. eapply dlim_ext; [intros y; apply H1|reflexivity|apply HP; auto].
        rewrite length_upd; auto.
      + eapply IH; [intros; reflexivity|apply H2|apply HM]. }
  eapply HE; [| |apply (mixed_dmbez (degrees s) G dirs (repeat 0 (length (degrees s))) orders)]; auto.
  - intros xs HX. unfold value_at. rewrite <- dmbez_0 by auto. symmetry. apply (linear_dmbez phi); auto.
  - intros xs HX. symmetry. apply (linear_dmbez phi); auto.
  - apply repeat_length.
  - intros k Hk. rewrite nth_repeat, <- HC by auto. reflexivity.
Qed.

Lemma c14_derivative_spline : forall (V : Type) (ov : VOps R V) (M : VMod R V) (MAXB : nat)
  (s : spline V) (orders : list nat),
  MAXB <= 68 -> wf s -> length orders = length (degrees s) ->
  Forall2 le orders (degrees s) -> Forall (fun k => k < MAXB) orders ->
  exists r f g, DerivativeWRT MAXB s orders = Ok r /\ wf r /\
    degrees r = map2 Nat.sub (degrees s) orders /\
    (forall xs : list R, length xs = length (degrees s) -> Evaluate s xs = Ok (f xs) /\ Evaluate r xs = Ok (g xs)) /\
    forall (phi : V -> R) dirs, linear_form phi -> directions_of orders dirs ->
      mixed (fun xs => length xs = length (degrees s)) dirs (fun xs => phi (f xs)) (fun xs => phi (g xs)).
Proof.
  intros V ov M MAXB s orders HB Hw HL Hle HM.
  destruct (DerivativeWRT_ok MAXB HB s orders Hw HL Hle HM) as (r & E & Hr & Hd & HV).
  assert (HLr : length (degrees r) = length (degrees s)) by (rewrite Hd, length_map2 by (symmetry; auto); auto).
  exists r, (value_at s), (fun xs => dmbez orders (degrees s) xs (fun mi => nth (position (degrees s) mi) (control_points s) v0)).
  do 3 (split; [auto|]). split.
  - intros xs HX. rewrite !Evaluate_value by (auto; congruence). rewrite HV by auto. auto.
  - intros phi dirs HP HD. apply mixed_spline; auto.
Qed.

Lemma c15_agrees : forall (T V : Type) (o : SOps T) (ov : VOps T V) (F : SField T) (M : VMod T V) (MAXB : nat)
  (s : spline V) (orders : list nat),
  MAXB <= 68 -> wf s -> length orders = length (degrees s) ->
  Forall2 le orders (degrees s) -> Forall (fun p => p < MAXB) (degrees s) ->
  exists r, DerivativeWRT MAXB s orders = Ok r /\
    forall xs : list T, length xs = length (degrees s) ->
      exists v, EvaluateDerivative MAXB s xs orders = Ok v /\ Evaluate r xs = Ok v.
Proof.
  intros T V o ov F M MAXB s orders HB Hw HL Hle HM.
  assert (HM' : Forall (fun k => k < MAXB) orders).
  { apply Forall_forall. intros k Hk. destruct (In_nth _ _ 0 Hk) as (j & Hj & <-).
    pose proof (le_nth _ _ Hle j) as A. rewrite HL in Hj. rewrite Forall_forall in HM.
    pose proof (HM (nth j (degrees s) 0) (nth_In _ _ Hj)). lia. }
  destruct (DerivativeWRT_ok MAXB HB s orders Hw HL Hle HM') as (r & E & Hr & Hd & HV).
  exists r. split; auto. intros xs HX. eexists. split; [apply EvaluateDerivative_ok; auto|].
  rewrite Evaluate_value; auto.
  - rewrite HV; auto.
  - rewrite HX, Hd, length_map2; auto.
Qed.

Lemma c15_zero : forall (T V : Type) (o : SOps T) (ov : VOps T V) (F : SField T) (M : VMod T V) (MAXB : nat)
  (s : spline V) (orders : list nat) (xs : list T) (k : nat),
  MAXB <= 68 -> wf s -> length orders = length (degrees s) -> length xs = length (degrees s) ->
  Forall (fun p => p < MAXB) (degrees s) ->
  k < length (degrees s) -> nth k (degrees s) 0 < nth k orders 0 ->
  EvaluateDerivative MAXB s xs orders = Ok v0.
Proof.
  intros. rewrite EvaluateDerivative_ok by auto. f_equal. apply (dmbez_gt _ _ _ _ k); auto.
Qed.

Lemma c15_derivative : forall (V : Type) (ov : VOps R V) (M : VMod R V) (MAXB : nat)
  (s : spline V) (orders : list nat),
  MAXB <= 68 -> wf s -> length orders = length (degrees s) -> Forall (fun p => p < MAXB) (degrees s) ->
  exists f g, (forall xs : list R, length xs = length (degrees s) ->
      Evaluate s xs = Ok (f xs) /\ EvaluateDerivative MAXB s xs orders = Ok (g xs)) /\
    forall (phi : V -> R) dirs, linear_form phi -> directions_of orders dirs ->
      mixed (fun xs => length xs = length (degrees s)) dirs (fun xs => phi (f xs)) (fun xs => phi (g xs)).
Proof.
  intros V ov M MAXB s orders HB Hw HL HM.
  exists (value_at s), (fun xs => dmbez orders (degrees s) xs (fun mi => nth (position (degrees s) mi) (control_points s) v0)).
  split.
  - intros xs HX. rewrite Evaluate_value, EvaluateDerivative_ok by auto. auto.
  - intros phi dirs HP HD. apply mixed_spline; auto.
Qed.

(** ** Orders beyond the degree *)
Lemma count64_zero (l r : list N) : count64 (l ++ (2 ^ 64 - 1)%N :: r) = 0%N.
Proof.
  unfold count64. rewrite fold_left_app. cbn [fold_left].
  change (u64 (2 ^ 64 - 1 + 1)) with 0%N. rewrite N.mul_0_r. change (u64 0) with 0%N.
  induction r; cbn [fold_left]; auto.
Qed.
Lemma shape_zero : forall todo orders done r, In (2 ^ 64 - 1)%N done ->
  derivative_shape_from done todo orders = Ok r -> snd r = 0%N.
Proof.
  induction todo as [|q todo IH]; intros orders done r HI E; cbn [derivative_shape_from] in E.
  - injection E as <-. apply in_split in HI. destruct HI as (a & b & ->). apply count64_zero.
  - destruct orders as [|k orders].
    + injection E as <-. apply in_split in HI. destruct HI as (a & b & ->). apply count64_zero.
    + destruct (N.eqb_spec k 0); [eapply IH; [|apply E]; apply in_or_app; auto|].
      destruct (_ && _); [discriminate|]. eapply IH; [|apply E]. apply in_or_app; auto.
Qed.

Lemma c16_one_beyond : forall (degs orders : list N) (i : nat) (nd : list N) (n : N),
  length orders = length degs -> i < length degs ->
  Forall (fun p => (p < 2 ^ 64)%N) degs -> nth i orders 0%N = (nth i degs 0 + 1)%N ->
  DerivativeShape64 degs orders = Ok (nd, n) -> n = 0%N.
Proof.
  intros degs orders i nd n HL Hi HF HN. unfold DerivativeShape64. generalize (@nil N) as done.
  revert orders i HL Hi HN. induction HF as [|q degs Hq HF IH]; intros [|k orders] i HL Hi HN done E;
    try discriminate; [simpl in Hi; lia|].
  cbn [derivative_shape_from] in E. destruct i as [|i].
  - cbn [nth] in HN. subst k. rewrite (proj2 (N.eqb_neq _ _)) in E by lia.
    destruct (_ && _); [discriminate|]. apply shape_zero in E; auto.
    apply in_or_app. right. left. unfold u64. replace (q + 2 ^ 64 - (q + 1))%N with (2 ^ 64 - 1)%N by lia.
    reflexivity.
  - destruct (k =? 0)%N; [|destruct (_ && _); [discriminate|]]; (eapply (IH orders i); [| | |apply E]; simpl in *; auto; lia).
Qed.

Lemma c16_beyond_degree_refuted : exists (degs orders nd : list N) (n : N),
  length orders = length degs /\ (exists i, nth i degs 0 < nth i orders 0)%N /\
  DerivativeShape64 degs orders = Ok (nd, n) /\
  n <> fold_right (fun p a => (p + 1) * a)%N 1%N nd.
Proof.
  exists [1; 1]%N, [2; 0]%N, [2 ^ 64 - 1; 1]%N, 0%N. split; auto. split; [exists 0; reflexivity|].
  split; [vm_compute; reflexivity|]. vm_compute. congruence.
Qed.

Lemma shape_any : forall (done degs orders : list N), length orders = length degs ->
  derivative_shape_from done degs orders = UB \/
  (let nd := map (fun qk => if (snd qk =? 0)%N then fst qk else u64 (fst qk + 2 ^ 64 - snd qk)) (combine degs orders) in
   derivative_shape_from done degs orders = Ok (done ++ nd, count64 (done ++ nd))).
Proof.
  intros done degs. revert done. induction degs as [|q degs IH]; intros done [|k orders] HL; try discriminate.
  - right. cbn. now rewrite app_nil_r.
  - cbn [derivative_shape_from combine map fst snd]. simpl in HL. destruct (N.eqb_spec k 0).
    + destruct (IH (done ++ [q]) orders) as [E|E]; [lia| |]; [left; exact E|right]. cbv zeta in *.
      rewrite E. rewrite <- !app_assoc. reflexivity.
    + cbv zeta. destruct (_ && _); [left; reflexivity|].
      destruct (IH (done ++ [u64 (q + 2 ^ 64 - k)]) orders) as [E|E]; [lia| |]; [left; exact E|right]. cbv zeta in *.
      rewrite E. rewrite <- !app_assoc. reflexivity.
Qed.

Lemma c16_beyond_degree : forall (degs orders : list N) (i : nat),
  length orders = length degs -> i < length degs -> (nth i degs 0 < nth i orders 0 < 2 ^ 64)%N ->
  DerivativeShape64 degs orders = UB \/
  exists nd n, DerivativeShape64 degs orders = Ok (nd, n) /\ (nth i nd 0 > nth i degs 0)%N.
Proof.
  intros degs orders i HL Hi HN. destruct (shape_any [] degs orders HL) as [E|E]; [left; exact E|right].
  cbv zeta in E. eexists _, _. split; [exact E|]. cbn [app].
  set (f := fun qk : N * N => if (snd qk =? 0)%N then fst qk else u64 (fst qk + 2 ^ 64 - snd qk)).
  rewrite (nth_indep _ 0%N (f (0, 0)%N)) by (rewrite map_length, combine_length; lia).
  rewrite map_nth, combine_nth by auto. unfold f. cbn [fst snd].
  rewrite (proj2 (N.eqb_neq _ _)) by lia. unfold u64. rewrite N.mod_small; lia.
Qed.

Lemma c16_within_degree : forall (degs orders : list N),
  length orders = length degs -> Forall (fun p => (p < 2 ^ 64)%N) degs ->
  (forall i, i < length degs -> (nth i orders 0 <= nth i degs 0)%N) ->
  (fold_right (fun p a => (p + 1) * a)%N 1%N degs < 2 ^ 64)%N ->
  let nd := map (fun qk => (fst qk - snd qk)%N) (combine degs orders) in
  DerivativeShape64 degs orders = Ok (nd, fold_right (fun p a => (p + 1) * a)%N 1%N nd).
Proof.
  intros degs orders HL HF HO HC nd.
  assert (HS : forall (degs orders done : list N), length orders = length degs -> Forall (fun p => (p < 2 ^ 64)%N) degs ->
    (forall i, i < length degs -> (nth i orders 0 <= nth i degs 0)%N) ->
    derivative_shape_from done degs orders =
      Ok (done ++ map (fun qk => (fst qk - snd qk)%N) (combine degs orders),
          count64 (done ++ map (fun qk => (fst qk - snd qk)%N) (combine degs orders)))).
  { clear. induction degs as [|q degs IH]; intros [|k orders] done HL HF HO; try discriminate.
    - cbn. now rewrite app_nil_r.
    - cbn [derivative_shape_from combine map fst snd]. simpl in HL. inversion HF; subst.
      assert (Hk : (k <= q)%N) by (apply (HO 0); simpl; lia).
      assert (HO' : (forall i, i < length degs -> (nth i orders 0 <= nth i degs 0)%N)) by (intros i Hi; apply (HO (S i)); simpl; lia).
      destruct (N.eqb_spec k 0).
      + subst k. rewrite IH by auto. rewrite N.sub_0_r, <- !app_assoc. reflexivity.
      + rewrite (proj2 (N.ltb_ge _ _)) by lia. cbn [andb].
        assert (E : u64 (q + 2 ^ 64 - k) = (q - k)%N).
        { unfold u64. replace (q + 2 ^ 64 - k)%N with (q - k + 1 * 2 ^ 64)%N by lia.
          rewrite N.mod_add by discriminate. apply N.mod_small. lia. }
        rewrite E, IH by auto. rewrite <- !app_assoc. reflexivity. }
  unfold DerivativeShape64. rewrite (HS degs orders []) by auto. cbn [app]. fold nd. do 2 f_equal.
  assert (HP : forall l a, (0 < a)%N -> (a * fold_right (fun p a => (p + 1) * a) 1 l < 2 ^ 64)%N ->
    fold_left (fun n p => u64 (n * u64 (p + 1))) l a = (a * fold_right (fun p a => (p + 1) * a) 1 l)%N).
  { assert (HPos : forall l, (1 <= fold_right (fun p a => (p + 1) * a) 1 l)%N) by (induction l; simpl; nia).
    induction l as [|p l IH]; intros a Ha H; cbn [fold_left fold_right] in *; [lia|].
    specialize (HPos l).
    assert (E : u64 (a * u64 (p + 1)) = (a * (p + 1))%N).
    { unfold u64. rewrite (N.mod_small (p + 1)) by nia. apply N.mod_small. nia. }
    rewrite E. rewrite IH; nia. }
  assert (HLe : (fold_right (fun p a => (p + 1) * a) 1 nd <= fold_right (fun p a => (p + 1) * a) 1 degs)%N).
  { unfold nd. clear -HL. revert orders HL. induction degs as [|q degs IH]; intros [|k orders] HL; try (simpl in HL; lia); [apply N.le_refl|].
    specialize (IH orders ltac:(simpl in HL; lia)). cbn [combine map fold_right fst snd]. apply N.mul_le_mono; lia. }
  unfold count64. rewrite HP by lia. lia.
Qed.
