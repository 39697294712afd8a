(** Claims about derivatives of rational splines. *)
From Coq Require Import Arith Lia List ZArith NArith Bool Ring Field QArith Qcanon Reals Lra.
From Verif Require Import Prelude Scalar Spec SpecSpline SpecReal Sums Coord ModelBasis ModelSpline ModelRational
  SpecRational Examples ProofIndex ProofBasis ProofEval ProofElevate ProofUnique ProofArith ProofMul ProofDeriv ProofDerivSpline
  ProofRational ProofRational2 ProofReal ProofLeibniz ProofRational4 ProofLeibnizReal ClaimsF.
Import ListNotations.
Local Open Scope nat_scope.

(** ** Mixed derivatives on open domains *)
Definition open_in (n : nat) (D : list R -> Prop) : Prop :=
  forall xs k, D xs -> k < n ->
    exists d, (0 < d)%R /\ forall y, (Rabs (y - nth k xs 0) < d)%R -> D (upd_list xs k y).

Lemma partial_ext n (D : list R -> Prop) k (f f' g : list R -> R) : open_in n D -> k < n ->
  (forall xs, D xs -> f xs = f' xs) -> partial D k f g -> partial D k f' g.
Proof.
  intros HO Hk HE HP xs HX. destruct (HO xs k HX Hk) as (d & Hd & HD).
  apply (dlim_ext_loc (fun y => f (upd_list xs k y)) _ _ _ d Hd); [|apply HP; auto].
  intros y Hy. apply HE. apply HD. auto.
Qed.
Lemma mixed_ext_open n (D : list R -> Prop) dirs : open_in n D -> Forall (fun k => k < n) dirs ->
  forall f f' g g' : list R -> R, (forall xs, D xs -> f xs = f' xs) -> (forall xs, D xs -> g xs = g' xs) ->
  mixed D dirs f g -> mixed D dirs f' g'.
Proof.
  intros HO HF. induction HF as [|k dirs Hk HF IH]; intros f f' g g' H1 H2 HM; cbn [mixed] in *.
  - intros xs HX. rewrite <- H1, <- H2 by auto. auto.
  - destruct HM as (h & HP & HM). exists h. split.
    + eapply partial_ext; eauto.
    + eapply IH; [reflexivity|apply H2|apply HM].
Qed.
Lemma mixed_app n (D : list R -> Prop) d1 d2 : open_in n D -> Forall (fun k => k < n) d1 -> Forall (fun k => k < n) d2 ->
  forall f g h : list R -> R, mixed D d1 f g -> mixed D d2 g h -> mixed D (d1 ++ d2) f h.
Proof.
  intros HO HF HF2. induction HF as [|k d1 Hk HF IH]; intros f g h H1 H2; cbn [mixed app] in *.
  - eapply mixed_ext_open; [exact HO|exact HF2| |reflexivity|exact H2]. intros xs HX. symmetry. auto.
  - destruct H1 as (f' & HP & HM). exists f'. split; auto. eapply IH; eauto.
Qed.
Lemma mixed_unique n (D : list R -> Prop) dirs : open_in n D -> Forall (fun k => k < n) dirs ->
  forall f f' g g' : list R -> R, (forall xs, D xs -> f xs = f' xs) ->
  mixed D dirs f g -> mixed D dirs f' g' -> forall xs, D xs -> g xs = g' xs.
Proof.
  intros HO HF. induction HF as [|k dirs Hk HF IH]; intros f f' g g' H1 HM HM' xs HX; cbn [mixed] in *.
  - rewrite <- HM, <- HM' by auto. auto.
  - destruct HM as (h & HP & HM). destruct HM' as (h' & HP' & HM').
    eapply IH; [|exact HM|exact HM'|exact HX].
    intros ys HY. pose proof (partial_ext n D k f f' h HO Hk H1 HP ys HY) as A.
    eapply uniqueness_limite; [apply A|apply HP'; auto].
Qed.

(** ** The recursion and linear forms *)
Section Spl.
Context {V : Type} {ov : VOps R V} {M : VMod R V}.

Lemma linear_vsum (phi : V -> R) n f : linear_form phi -> phi (vsum n f) = vsum n (fun i => phi (f i)).
Proof.
  intros (HA & HS). apply (vsum_linear phi); [|exact HA].
  pose proof (HA v0 v0) as A. rewrite vm_0 in A. change (phi v0 = 0%R). lra.
Qed.
Lemma linear_sub (phi : V -> R) a b : linear_form phi -> phi (vsub a b) = (phi a - phi b)%R.
Proof.
  intros (HA & HS). assert (E : vadd (vsub a b) b = a).
  { rewrite vm_sub, <- vm_assoc, (vm_comm (vopp b)), vm_opp. apply vadd_0_r. }
  pose proof (HA (vsub a b) b) as H. rewrite E in H. lra.
Qed.
Lemma linear_0 (phi : V -> R) : linear_form phi -> phi v0 = 0%R.
Proof. intros (HA & HS). pose proof (HA v0 v0) as A. rewrite vm_0 in A. lra. Qed.
Lemma linear_leib (phi : V -> R) cf nd w inv A i : linear_form phi ->
  phi (leib cf nd w inv A i) = leib (V := R) cf nd w inv (fun j => phi (A j)) i.
Proof.
  intros HP. apply (leib_unique cf nd w inv (fun j => phi (A j)) (fun k => phi (leib cf nd w inv A k)) (S i)); [|lia].
  intros k Hk. rewrite leib_eq. pose proof HP as (HA & HS). rewrite HS, linear_sub, linear_vsum by auto.
  apply (f_equal (Rmult inv)). apply (f_equal (Rminus (phi (A k)))). apply vsum_ext. intros j Hj.
  unfold lterm. destruct (subset _ _); [apply HS|apply linear_0; auto].
Qed.

Context (r : rspline R V) (Hr : rwf r).
Let n := length (rdegrees r).
Let W := fun a xs => wder r xs a.

Lemma wder_dlim a k (xs : list R) : length a = n -> k < n -> length xs = n ->
  derivable_pt_lim (fun y => W a (upd_list xs k y)) (nth k xs 0%R) (W (inc a k) xs).
Proof. intros Ha Hk HX. unfold W, wder, inc. apply dlim_dmbez; auto. Qed.
Lemma nder_dlim phi a k (xs : list R) : linear_form phi -> length a = n -> k < n -> length xs = n ->
  derivable_pt_lim (fun y => phi (nder r (upd_list xs k y) a)) (nth k xs 0%R) (phi (nder r xs (inc a k))).
Proof.
  intros HP Ha Hk HX. unfold nder, inc. eapply dlim_ext; [intros y; symmetry; apply (linear_dmbez phi); auto| |].
  - symmetry. apply (linear_dmbez phi); auto.
  - apply dlim_dmbez; auto.
Qed.

Lemma dom_iff xs : dom n W xs <-> rdomain r xs.
Proof.
  unfold dom, rdomain, W, zero. fold n. split; intros (HX & H0); split; auto.
  - rewrite <- (wder_0 r xs Hr HX). exact H0.
  - intros E. apply H0. rewrite <- (wder_0 r xs Hr HX). exact E.
Qed.
Lemma open_dom : open_in n (rdomain r).
Proof.
  intros xs k HD Hk. pose proof HD as (HX & _). apply dom_iff in HD. destruct HD as (_ & H0).
  pose proof (wder_dlim (zero n) k xs ltac:(unfold zero; apply repeat_length) Hk HX) as D.
  destruct (dlim_nonzero _ _ _ D) as (d & Hd & HZ); [now rewrite upd_at_same|].
  exists d. split; auto. intros y Hy. apply dom_iff. split; [rewrite length_upd; auto|]. apply HZ. auto.
Qed.
Lemma mixed_dom (D D' : list R -> Prop) : (forall xs, D' xs -> D xs) -> forall dirs f g, mixed D dirs f g -> mixed D' dirs f g.
Proof.
  intros HD dirs. induction dirs as [|k dirs IH]; intros f g H; cbn [mixed] in *; [auto|].
  destruct H as (h & HP & HM). exists h. split; auto. intros xs HX. apply HP. auto.
Qed.

Lemma rvalue_quot phi xs : linear_form phi -> rdomain r xs ->
  (phi (rvalue r xs) = phi (nder r xs (zero n)) / W (zero n) xs)%R.
Proof.
  intros (HA & HS) (HX & H0). unfold rvalue. rewrite HS. unfold W, zero, n. rewrite wder_0, nder_0 by auto.
  cbn [sdiv s1 SOps_R]. field. exact H0.
Qed.

(** The exact recursion yields every mixed derivative of the value. *)
Definition exder (phi : V -> R) (orders : list nat) (xs : list R) : R :=
  QD n (fun a xs => phi (nder r xs a)) W orders orders xs.
Lemma mixed_exder phi orders dirs : linear_form phi -> length orders = n -> directions_of orders dirs ->
  mixed (rdomain r) dirs (fun xs => phi (rvalue r xs)) (exder phi orders).
Proof.
  intros HP HO (HF & HC). rewrite HO in *.
  pose proof (mixed_QD n (fun a xs => phi (nder r xs a)) W
    (fun a k xs Ha Hk HX => nder_dlim phi a k xs HP Ha Hk HX) wder_dlim orders HO dirs (zero n) orders) as HM.
  eapply mixed_ext_open; [apply open_dom|exact HF| |reflexivity|].
  2:{ eapply mixed_dom; [|apply HM]; auto.
      - intros xs HX. apply dom_iff. exact HX.
      - unfold zero. rewrite <- HO. clear. induction orders; constructor; auto. lia.
      - apply valid_refl.
      - intros k Hk. unfold zero. rewrite nth_repeat, <- HC by auto. reflexivity. }
  intros xs HX. rewrite rvalue_quot by auto. apply (QD_0 n (fun a xs => phi (nder r xs a)) W
    (fun a k xs Ha Hk HX => nder_dlim phi a k xs HP Ha Hk HX) wder_dlim orders HO).
  apply dom_iff. auto.
Qed.

Lemma exder_rder phi orders xs : linear_form phi -> binoms_fit orders -> length orders = n -> rdomain r xs ->
  exder phi orders xs = phi (rder r xs orders (position orders orders)).
Proof.
  intros HP HB HO (HX & H0). unfold exder, QD, rder. rewrite linear_leib by auto.
  rewrite (leib_coeff wbinom mbinom) by (intros; apply (wbinom_fit orders); auto).
  unfold W, zero, n in *. rewrite wder_0 by auto. reflexivity.
Qed.
End Spl.

(** ** C37 *)
Lemma c37_evaluate_derivative_partial : forall (V : Type) (ov : VOps R V) (M : VMod R V) (MAXB : nat)
  (r : rspline R V) (orders : list nat),
  MAXB <= 68 -> rwf r -> length orders = length (rdegrees r) ->
  Forall (fun p => p < MAXB) (rdegrees r) -> Forall (fun k => k < MAXB) orders -> binoms_fit orders ->
  exists f g, (forall xs : list R, rdomain r xs ->
      R_Evaluate r xs = Ok (f xs) /\ R_EvaluateDerivative MAXB r xs orders = Ok (g xs)) /\
    forall (phi : V -> R) dirs, linear_form phi -> directions_of orders dirs ->
      mixed (rdomain r) dirs (fun xs => phi (f xs)) (fun xs => phi (g xs)).
Proof.
  intros V ov M MAXB r orders HB Hr HO HM HMo HF.
  exists (rvalue r), (fun xs => rder r xs orders (position orders orders)). split.
  - intros xs HX. rewrite R_Evaluate_ok, (R_EvaluateDerivative_ok MAXB HB) by auto. auto.
  - intros phi dirs HP HD. pose proof HD as (HFd & _). rewrite HO in HFd.
    eapply mixed_ext_open; [apply (open_dom r Hr)|exact HFd|reflexivity| |apply mixed_exder; eauto].
    intros xs HX. apply exder_rder; auto.
Qed.

Lemma pascal_bound_at b m : forallb (fun n => forallb (fun x => (x <? b)%N) (pascal_row n)) (seq 0 m) = true ->
  (0 < b)%N -> forall n j, n < m -> (binom n j < b)%N.
Proof.
  intros H Hb n j Hn. rewrite <- nth_pascal.
  destruct (Nat.lt_ge_cases j (length (pascal_row n))) as [Hj|Hj].
  - rewrite forallb_forall in H. specialize (H n). rewrite in_seq in H. specialize (H ltac:(lia)).
    rewrite forallb_forall in H. apply N.ltb_lt, H, nth_In; auto.
  - rewrite nth_overflow by auto. exact Hb.
Qed.
Lemma mbinom_bound b m : (forall n j, n < m -> (binom n j <= b)%N) -> (0 < b)%N -> forall a c, Forall (fun k => k < m) a ->
  (mbinom a c <= b ^ N.of_nat (length a))%N.
Proof.
  intros H Hb a. induction a as [|x a IH]; intros c HF; [simpl; lia|]. inversion HF; subst.
  assert (Hp : (0 < b ^ N.of_nat (length a))%N) by (apply N.neq_0_lt_0, N.pow_nonzero; lia).
  cbn [length]. rewrite Nat2N.inj_succ, N.pow_succ_r'. destruct c as [|y c]; cbn [mbinom].
  - pose proof (N.mul_pos_pos _ _ Hb Hp). lia.
  - apply N.mul_le_mono; auto.
Qed.
Lemma fit_bound b m (orders : list nat) : (forall n j, n < m -> (binom n j <= b)%N) -> (0 < b)%N ->
  Forall (fun k => k < m) orders -> (b ^ N.of_nat (length orders) < 2 ^ 64)%N -> binoms_fit orders.
Proof.
  intros H Hb HF HL a c Ha Hc. eapply N.le_lt_trans; [apply (mbinom_bound b m H Hb)|].
  - apply Forall_forall. intros x Hx. destruct (In_nth _ _ 0 Hx) as (k & Hk & <-).
    pose proof (valid_nth_le _ _ k Ha). rewrite (valid_len _ _ Ha) in Hk.
    rewrite Forall_forall in HF. pose proof (HF _ (nth_In _ 0 Hk)). simpl in *. lia.
  - rewrite (valid_len _ _ Ha). exact HL.
Qed.

Lemma c37_binomials_fit : forall orders : list nat,
  list_sum orders <= 63 \/
  (length orders <= 1 /\ Forall (fun k => k < 68) orders) \/
  (length orders <= 2 /\ Forall (fun k => k < 35) orders) \/
  (length orders <= 3 /\ Forall (fun k => k < 24) orders) -> binoms_fit orders.
Proof.
  intros orders [H|[(H & HF)|[(H & HF)|(H & HF)]]].
  - apply binoms_fit_small; auto.
  - apply (fit_bound (2 ^ 64 - 1) 68); auto; [|lia|].
    + intros n j Hn. pose proof (binom_bound n j Hn). lia.
    + eapply N.le_lt_trans; [apply (N.pow_le_mono_r _ _ 1); lia|]. reflexivity.
  - apply (fit_bound (2 ^ 32 - 1) 35); auto; [|lia|].
    + intros n j Hn. assert (binom n j < 2 ^ 32)%N; [|lia]. apply (pascal_bound_at (2 ^ 32) 35); auto; vm_compute; reflexivity.
    + eapply N.le_lt_trans; [apply (N.pow_le_mono_r _ _ 2); lia|]. reflexivity.
  - apply (fit_bound 2642244 24); auto; [|lia|].
    + intros n j Hn. assert (binom n j < 2642245)%N; [|lia]. apply (pascal_bound_at 2642245 24); auto; vm_compute; reflexivity.
    + eapply N.le_lt_trans; [apply (N.pow_le_mono_r _ _ 3); lia|]. reflexivity.
Qed.

(** An order as large as the table of binomial coefficients fails the assertion. *)
Definition ex_rc : rspline Qc Qc :=
  mkR (mkSpline [1] 2 [1] [Q2Qc 1; Q2Qc 2]) (mkSpline [1] 2 [1] [Q2Qc 1; Q2Qc 2]).

Lemma for_up_last_fails {A} (body : nat -> A -> res A) n lo a :
  (forall x y, body (lo + n) x <> Ok y) -> forall y, for_up lo (S n) body a <> Ok y.
Proof.
  intros H y E. rewrite for_up_S in E. destruct (for_up lo n body a); try discriminate. exact (H _ _ E).
Qed.

Lemma c37_large_order_refuted : forall MAXB : nat, 1 < MAXB ->
  exists (r : rspline Qc Qc) (xs : list Qc),
    rwf r /\ rdomain r xs /\ Forall (fun p => p < MAXB) (rdegrees r) /\
    forall v, R_EvaluateDerivative MAXB r xs [MAXB] <> Ok v.
Proof.
  intros MAXB HM. exists ex_rc, [Q2Qc 0]. split; [case_|]. split.
  { split; [reflexivity|]. vm_compute. discriminate. }
  split; [repeat constructor; auto|]. intros v E. unfold R_EvaluateDerivative in E.
  rewrite global_ids_ok in E by apply valid_refl. cbn [bind] in E.
  destruct (for_up 0 (position [MAXB] [MAXB] + 1) _ _) as [(A & w)| | | | |] in E; cbn [bind] in E; try discriminate.
  destruct (get w 0) as [w0| | | | |]; cbn [bind] in E; try discriminate.
  destruct (divS s1 w0) as [inv| | | | |]; cbn [bind] in E; try discriminate.
  destruct (leibniz_loop _ _ _ _ _ _ _ _) as [ds| | | | |] eqn:EL; cbn [bind] in E; try discriminate.
  clear E. revert EL. unfold leibniz_loop.
  replace (position [MAXB] [MAXB] + 1) with (S MAXB) by (simpl; lia).
  apply for_up_last_fails. intros x y Eb. cbv beta in Eb. rewrite local_ids_ok in Eb. cbn [bind] in Eb.
  destruct (get A (0 + MAXB)) as [a| | | | |]; cbn [bind] in Eb; try discriminate.
  destruct (set x (0 + MAXB) a) as [x'| | | | |]; cbn [bind] in Eb; try discriminate.
  assert (EI : index_of [MAXB] (0 + MAXB) = [MAXB]) by (cbn [index_of Nat.add]; rewrite Nat.mod_small by lia; reflexivity).
  rewrite EI in Eb. replace (0 + MAXB) with (S (MAXB - 1)) in Eb by lia.
  change (for_up 1 (S (MAXB - 1)) ?b ?s) with (do s' <- b 1 s; for_up 2 (MAXB - 1) b s') in Eb.
  cbv beta in Eb. rewrite local_ids_ok in Eb.
  assert (EJ : index_of [MAXB] 1 = [1]) by (cbn [index_of Nat.add]; rewrite Nat.mod_small by lia; reflexivity).
  rewrite EJ in Eb. cbn [bind] in Eb.
  assert (ES : is_not_subset [MAXB] [1] (length [MAXB]) = Ok false).
  { change (length [MAXB]) with (length [MAXB]). rewrite (is_not_subset_ok [MAXB] [1] eq_refl). cbn [subset].
    rewrite (proj2 (Nat.leb_le 1 MAXB)) by lia. reflexivity. }
  rewrite ES in Eb. cbn [bind] in Eb.
  assert (EB : binom_product MAXB [MAXB] [1] (length [MAXB]) = AssertFail).
  { unfold binom_product. cbn [length for_up get nth_error bind]. rewrite choose_assert by lia. reflexivity. }
  rewrite EB in Eb. discriminate.
Qed.

(** ** C38 *)
Lemma c38_basis_derivatives : forall (T V : Type) (o : SOps T) (ov : VOps T V) (F : SField T) (M : VMod T V)
  (MAXB : nat) (r : rspline T V) (xs : list T) (orders : list nat) (pts : list V),
  MAXB <= 68 -> rwf r -> rdomain r xs -> length orders = length (rdegrees r) ->
  Forall (fun p => p < MAXB) (rdegrees r) -> Forall (fun k => k < MAXB) orders ->
  (forall i, i < n_coeffs (rdegrees r) -> nth i (control_points (weighted_spline r)) v0 =
     vscale (nth i (control_points (weight_function r)) s0) (nth i pts v0)) ->
  exists bs : list T, R_BasisFunctionsDerivatives MAXB r xs orders = Ok bs /\
    length bs = n_coeffs (rdegrees r) /\
    R_EvaluateDerivative MAXB r xs orders =
      Ok (vsum (length bs) (fun i => vscale (nth i bs s0) (nth i pts v0))).
Proof.
  intros T V o ov F M MAXB r xs orders pts HB Hr HD HO HM HMo HP.
  destruct (R_BasisFunctionsDerivatives_ok MAXB HB r xs orders Hr HD HO HM HMo) as (bs & E & HL & HN).
  exists bs. split; auto. split; auto. rewrite (R_EvaluateDerivative_ok MAXB HB) by auto. f_equal.
  rewrite HL. rewrite <- (bder_sum MAXB HB r xs orders pts) by (auto; apply HD). apply vsum_ext. intros i Hi.
  rewrite HN by auto. reflexivity.
Qed.

(** ** C39 *)
Section Step.
Context {T V : Type} {o : SOps T} {ov : VOps T V} {F : SField T} {M : VMod T V}.
Definition unit_order (n k : nat) : list nat := upd_list (repeat 0 n) k 1.
Lemma nth_unit n k j : k < n -> nth j (unit_order n k) 0 = if j =? k then 1 else 0.
Proof.
  intros H. unfold unit_order. rewrite nth_upd by now rewrite repeat_length. rewrite nth_repeat. reflexivity.
Qed.
Lemma length_unit n k : length (unit_order n k) = n.
Proof. unfold unit_order. rewrite length_upd. apply repeat_length. Qed.
Definition twice (l : list nat) : list nat := map (Nat.mul 2) l.
Lemma twice_add l : map2 Nat.add l l = twice l.
Proof. induction l; auto. cbn [map2 twice map]. f_equal; [lia|auto]. Qed.
Lemma nth_twice l j : nth j (twice l) 0 = 2 * nth j l 0.
Proof. unfold twice. exact (map_nth (Nat.mul 2) l 0 j). Qed.
Lemma nth_map2_add l m k : length m = length l -> k < length l -> nth k (map2 Nat.add l m) 0 = nth k l 0 + nth k m 0.
Proof. revert m k; induction l; intros [|b m] [|k] H Hk; try discriminate; simpl in *; auto; try lia. apply IHl; lia. Qed.
Lemma forall_nth (P : nat -> Prop) l : (forall j, j < length l -> P (nth j l 0)) -> Forall P l.
Proof. intros H. apply Forall_forall. intros x Hx. destruct (In_nth _ _ 0 Hx) as (j & Hj & <-). auto. Qed.
Lemma nth_forall (P : nat -> Prop) l j : Forall P l -> j < length l -> P (nth j l 0).
Proof. intros H Hj. rewrite Forall_forall in H. apply H. apply nth_In. auto. Qed.

Context (MAXB : nat) (HB : MAXB <= 68).

Lemma R_derivative_step_ok fuel (r : rspline T V) k : rwf r -> k < length (rdegrees r) ->
  1 <= nth k (rdegrees r) 0 -> Forall (fun p => p < MAXB) (twice (rdegrees r)) ->
  (Z.of_nat (n_coeffs (twice (rdegrees r))) < 2 ^ 31)%Z -> list_max (twice (rdegrees r)) + 1 < fuel ->
  exists r', R_derivative_step MAXB fuel k r = Ok r' /\ rwf r' /\ rdegrees r' = twice (rdegrees r) /\
    forall xs, length xs = length (rdegrees r) ->
      value_at (weight_function r') xs = smul (value_at (weight_function r) xs) (value_at (weight_function r) xs) /\
      value_at (weighted_spline r') xs =
        vsub (vscale (value_at (weight_function r) xs) (nder r xs (unit_order (length (rdegrees r)) k)))
             (vscale (wder r xs (unit_order (length (rdegrees r)) k)) (value_at (weighted_spline r) xs)).
Proof.
  intros Hr Hk H1 HM Hsz Hf. pose proof Hr as (Hu & Hw & Hd). unfold R_derivative_step.
  set (degs := rdegrees r) in *. set (n := length degs) in *.
  change (length (degrees (weighted_spline r))) with n.
  rewrite set_ok by (rewrite repeat_length; auto). cbn [bind]. fold (unit_order n k). set (e := unit_order n k).
  assert (Le : length e = n) by apply length_unit.
  assert (Hle : Forall2 le e degs).
  { apply Forall2_nth_le; [auto|]. intros j Hj. unfold e. rewrite nth_unit by auto. destruct (Nat.eqb_spec j k) as [->|]; lia. }
  pose proof (nth_forall _ _ k HM ltac:(unfold twice; rewrite map_length; auto)) as HM2. cbv beta in HM2. rewrite nth_twice in HM2.
  assert (HMe : Forall (fun q => q < MAXB) e).
  { apply forall_nth. intros j Hj. unfold e. rewrite nth_unit by auto. destruct (j =? k); lia. }
  destruct (DerivativeWRT_ok MAXB HB (weighted_spline r) e Hu) as (du & Edu & Wdu & Ddu & Vdu); auto.
  destruct (DerivativeWRT_ok (V := T) MAXB HB (weight_function r) e Hw) as (dw & Edw & Wdw & Ddw & Vdw); auto; try (rewrite Hd; auto).
  rewrite Edu, Edw. cbn [bind]. rewrite Hd in Ddw, Vdw. change (degrees (weighted_spline r)) with degs in *.
  set (dd := map2 Nat.sub degs e) in *.
  assert (Ldd : length dd = n) by (unfold dd; rewrite length_map2; auto).
  assert (Hdd : forall j, j < n -> nth j dd 0 = if j =? k then nth k degs 0 - 1 else nth j degs 0).
  { intros j Hj. unfold dd. rewrite nth_map2_sub by auto. unfold e. rewrite nth_unit by auto.
    destruct (Nat.eqb_spec j k) as [->|]; lia. }
  set (pd := map2 Nat.add dd degs).
  assert (Lpd : length pd = n) by (unfold pd; rewrite length_map2; auto).
  assert (Hpd : forall j, j < n -> nth j pd 0 = if j =? k then 2 * nth k degs 0 - 1 else 2 * nth j degs 0).
  { intros j Hj. unfold pd. rewrite nth_map2_add by lia. rewrite Hdd by auto. destruct (Nat.eqb_spec j k) as [->|]; lia. }
  assert (HMp : Forall (fun p => p < MAXB) pd).
  { apply forall_nth. intros j Hj. rewrite Lpd in Hj. rewrite Hpd by auto.
    pose proof (nth_forall _ _ j HM ltac:(unfold twice; rewrite map_length; auto)) as A. cbv beta in A. rewrite nth_twice in A.
    destruct (Nat.eqb_spec j k) as [->|]; lia. }
  destruct (spline_mul_ok (fun (p : V) (c : T) => vscale c p) MAXB HB du (weight_function r))
    as (a & Ea & Wa & Da & Va); auto; try (rewrite Ddu, Hd; auto; congruence).
  destruct (spline_mul_ok (fun (c : T) (p : V) => vscale c p) MAXB HB dw (weighted_spline r))
    as (b & Eb & Wb & Db & Vb); auto; try (rewrite Ddw; auto; congruence).
  rewrite Ddu, Hd in Da. rewrite Ddw in Db. change (degrees (weighted_spline r)) with degs in Db. fold pd in Da, Db.
  change (spline_mul_vs MAXB du (weight_function r)) with (spline_mul MAXB (fun (p : V) (c : T) => vscale c p) du (weight_function r)).
  rewrite Ea. cbn [bind].
  change (spline_mul_sv MAXB dw (weighted_spline r)) with (spline_mul MAXB (fun (c : T) (p : V) => vscale c p) dw (weighted_spline r)).
  rewrite Eb. cbn [bind].
  assert (Hle2 : Forall2 le pd (twice degs)).
  { apply Forall2_nth_le; [unfold twice; rewrite map_length; auto|]. intros j Hj. rewrite Lpd in Hj. rewrite Hpd, nth_twice by auto.
    destruct (Nat.eqb_spec j k) as [->|]; lia. }
  destruct (sub_same fuel a b) as (c & Ec & _ & Wc & Dc & Vc); auto; try congruence.
  { rewrite Da. pose proof (n_coeffs_mono pd (twice degs) Hle2). lia. }
  { rewrite Da. pose proof (list_max_le pd (twice degs) Hle2). lia. }
  rewrite Ec. cbn [bind].
  assert (Edeg : upd_list pd k (S (nth k pd 0)) = twice degs).
  { apply (list_ext 0); [rewrite length_upd; unfold twice; rewrite map_length; auto|]. intros j Hj.
    rewrite length_upd, Lpd in Hj. rewrite nth_upd by lia. rewrite nth_twice, Hpd by auto.
    rewrite Hpd, Nat.eqb_refl by auto. destruct (Nat.eqb_spec j k) as [->|]; lia. }
  destruct (OrderElevate_step c k Wc) as (u' & Eu & Wu & Du & Vu).
  { rewrite Dc, Da. lia. }
  { rewrite Dc, Da, Edeg. exact Hsz. }
  rewrite Eu. cbn [bind]. rewrite Dc, Da, Edeg in Du.
  destruct (mul_ss_ok MAXB HB (weight_function r) (weight_function r)) as (w' & Ew & Ww & Dw & Vw); auto.
  { rewrite Hd, twice_add. exact HM. }
  rewrite Ew. cbn [bind].
  assert (Dw' : degrees w' = twice degs).
  { rewrite Dw, Hd, twice_add. reflexivity. }
  rewrite R_mk_ok by congruence. eexists. split; [reflexivity|]. cbn [weighted_spline weight_function].
  split; [split; [|split]; cbn; congruence|]. split; [exact Du|]. intros xs HX. split.
  - apply Vw. rewrite Hd. exact HX.
  - rewrite Vu by (rewrite Dc, Da; congruence). rewrite Vc by (rewrite Da; congruence).
    rewrite Va by congruence. rewrite Vb by congruence. rewrite Vdu by auto. rewrite Vdw by auto. reflexivity.
Qed.
End Step.

Lemma vsub_linear {V} {ov : VOps R V} {M : VMod R V} (phi : V -> R) a b c d e : linear_form phi ->
  phi (vscale e (vsub (vscale c a) (vscale d b))) = (e * (c * phi a - d * phi b))%R.
Proof. intros HP. pose proof HP as (HA & HS). rewrite HS, linear_sub, !HS by auto. reflexivity. Qed.

Lemma inc_zero n k : k < n -> inc (zero n) k = unit_order n k.
Proof. intros H. unfold inc, zero, unit_order. rewrite nth_repeat. reflexivity. Qed.

(** One quotient-rule step differentiates in direction [k]. *)
Lemma step_partial {V} {ov : VOps R V} {M : VMod R V} (r r' : rspline R V) k : rwf r -> k < length (rdegrees r) ->
  length (rdegrees r') = length (rdegrees r) ->
  (forall xs, length xs = length (rdegrees r) ->
      value_at (weight_function r') xs = smul (value_at (weight_function r) xs) (value_at (weight_function r) xs) /\
      value_at (weighted_spline r') xs =
        vsub (vscale (value_at (weight_function r) xs) (nder r xs (unit_order (length (rdegrees r)) k)))
             (vscale (wder r xs (unit_order (length (rdegrees r)) k)) (value_at (weighted_spline r) xs))) ->
  (forall xs, rdomain r' xs <-> rdomain r xs) /\
  forall phi, linear_form phi -> partial (rdomain r) k (fun xs => phi (rvalue r xs)) (fun xs => phi (rvalue r' xs)).
Proof.
  intros Hr Hk HL HV. set (n := length (rdegrees r)) in *. split.
  - intros xs. split; intros (HX & H0).
    + assert (HX' : length xs = n) by (etransitivity; [exact HX|exact HL]).
      split; [exact HX'|]. intros E. apply H0. rewrite (proj1 (HV xs HX')), E. apply Rmult_0_l.
    + split; [etransitivity; [exact HX|symmetry; exact HL]|].
      rewrite (proj1 (HV xs HX)). apply Rmult_integral_contrapositive. auto.
  - intros phi HP xs HX. pose proof HX as (HLx & H0).
    pose proof (open_dom r Hr xs k HX Hk) as (d & Hd & HO).
    apply (dlim_ext_loc (fun y => (phi (nder r (upd_list xs k y) (zero n)) / wder r (upd_list xs k y) (zero n))%R) _ _ _ d Hd).
    { intros y Hy. symmetry. apply (rvalue_quot r Hr phi); auto. }
    pose proof (nder_dlim r phi (zero n) k xs HP ltac:(unfold zero; apply repeat_length) Hk HLx) as DN.
    pose proof (wder_dlim r (zero n) k xs ltac:(unfold zero; apply repeat_length) Hk HLx) as DW. cbv beta in DW.
    assert (Hz : (wder r xs (zero n) <> 0)%R).
    { intros E. apply H0. rewrite <- (wder_0 r xs Hr HLx). exact E. }
    assert (Hz' : (wder r (upd_list xs k (nth k xs 0)) (zero n) <> 0)%R) by (rewrite upd_at_same; exact Hz).
    pose proof (dlim_div (fun y => phi (nder r (upd_list xs k y) (zero n)))
      (fun y => wder r (upd_list xs k y) (zero n)) _ _ _ Hz' DN DW) as DD.
    eapply dlim_ext; [reflexivity| |exact DD].
    cbv beta. rewrite upd_at_same, inc_zero by auto. unfold rvalue. destruct (HV xs HLx) as (E1 & E2).
    rewrite E1, E2. symmetry. etransitivity; [apply (vsub_linear phi); auto|].
    rewrite <- (wder_0 r xs Hr HLx), <- (nder_0 r xs Hr HLx). fold n. fold (zero n).
    change (zero n) with (repeat 0 n) in *. cbn [sdiv s1 smul SOps_R]. unfold Rsqr. change R1 with 1%R. field. exact Hz.
Qed.

Definition pow_degs (m : nat) (degs : list nat) : list nat := map (Nat.mul (2 ^ m)) degs.
Lemma twice_pow m degs : twice (pow_degs m degs) = pow_degs (S m) degs.
Proof. unfold twice, pow_degs. rewrite map_map. apply map_ext. intros x. rewrite Nat.pow_succ_r'. lia. Qed.
Lemma pow_degs_le m m' degs : m <= m' -> Forall2 le (pow_degs m degs) (pow_degs m' degs).
Proof.
  intros H. unfold pow_degs. induction degs; constructor; auto. apply Nat.mul_le_mono_r. apply Nat.pow_le_mono_r; lia.
Qed.
Lemma nth_pow m degs j : nth j (pow_degs m degs) 0 = 2 ^ m * nth j degs 0.
Proof. unfold pow_degs. rewrite <- (map_nth (Nat.mul (2 ^ m)) degs 0 j). f_equal. lia. Qed.
Lemma length_pow m degs : length (pow_degs m degs) = length degs.
Proof. apply map_length. Qed.
Lemma Forall_le l m (b : nat) : Forall2 le l m -> Forall (fun p => p < b) m -> Forall (fun p => p < b) l.
Proof. induction 1; intros H'; inversion H'; subst; constructor; auto. lia. Qed.

Definition cdirs (orders : list nat) (i : nat) : list nat :=
  concat (map (fun k => repeat k (nth k orders 0)) (seq 0 i)).
Lemma cdirs_S orders i : cdirs orders (S i) = cdirs orders i ++ repeat i (nth i orders 0).
Proof. unfold cdirs. rewrite seq_S, map_app, concat_app. simpl. now rewrite app_nil_r. Qed.
Lemma length_cdirs orders i : i <= length orders -> length (cdirs orders i) = list_sum (firstn i orders).
Proof.
  induction i; intros H; [reflexivity|]. rewrite cdirs_S, app_length, repeat_length, IHi by lia.
  rewrite (firstn_S_nth 0) by lia. rewrite list_sum_app. simpl. lia.
Qed.
Lemma sum_firstn_le orders i : list_sum (firstn i orders) <= list_sum orders.
Proof. rewrite <- (firstn_skipn i orders) at 2. rewrite list_sum_app. lia. Qed.

Lemma cdirs_directions orders : directions_of orders (cdirs orders (length orders)).
Proof.
  assert (HH : forall i, Forall (fun k => k < i) (cdirs orders i) /\
    forall k, count_occ Nat.eq_dec (cdirs orders i) k = if k <? i then nth k orders 0 else 0).
  { induction i as [|i (IH1 & IH2)]; [split; [constructor|reflexivity]|]. rewrite cdirs_S. split.
    - apply Forall_app. split; [eapply Forall_impl; [|exact IH1]; simpl; lia|].
      apply Forall_forall. intros x Hx. apply repeat_spec in Hx. lia.
    - intros k. rewrite count_occ_app, IH2. destruct (Nat.eq_dec k i) as [->|Hne].
      + rewrite count_occ_repeat_eq by auto. rewrite (proj2 (Nat.ltb_ge i i)), (proj2 (Nat.ltb_lt i (S i))) by lia. lia.
      + rewrite count_occ_repeat_neq by auto. destruct (Nat.ltb_spec k i), (Nat.ltb_spec k (S i)); lia. }
  destruct (HH (length orders)) as (A & B). split; auto. intros k Hk. rewrite B. rewrite (proj2 (Nat.ltb_lt k _)) by auto. reflexivity.
Qed.

Section Loop.
Context {V : Type} {ov : VOps R V} {M : VMod R V} (MAXB : nat) (HB : MAXB <= 68) (fuel : nat).
Context (r : rspline R V) (Hr : rwf r) (total : nat).
Let degs := rdegrees r.
Let n := length degs.
Context (HM : Forall (fun p => p < MAXB) (pow_degs total degs)).
Context (Hsz : (Z.of_nat (n_coeffs (pow_degs total degs)) < 2 ^ 31)%Z).
Context (Hf : list_max (pow_degs total degs) + 1 < fuel).

(** State after differentiating in the directions [ds]. *)
Definition dstate (ds : list nat) (c : rspline R V) : Prop :=
  Forall (fun k => k < n) ds /\ rwf c /\ rdegrees c = pow_degs (length ds) degs /\
  (forall xs, rdomain c xs <-> rdomain r xs) /\
  forall phi, linear_form phi -> mixed (rdomain r) ds (fun xs => phi (rvalue r xs)) (fun xs => phi (rvalue c xs)).

Lemma dstate_step ds c k : dstate ds c -> length ds < total -> k < n -> 1 <= nth k degs 0 ->
  exists c', R_derivative_step MAXB fuel k c = Ok c' /\ dstate (ds ++ [k]) c'.
Proof.
  intros (HF & Hc & Hd & HD & HX) HL Hk H1.
  assert (Hle : Forall2 le (pow_degs (S (length ds)) degs) (pow_degs total degs)) by (apply pow_degs_le; lia).
  assert (HLc : length (rdegrees c) = n) by (rewrite Hd; apply length_pow).
  destruct (R_derivative_step_ok MAXB HB fuel c k) as (c' & E & Wc & Dc & HV); auto; try lia.
  - rewrite Hd, nth_pow. pose proof (Nat.pow_nonzero 2 (length ds)). nia.
  - rewrite Hd, twice_pow. eapply Forall_le; eauto.
  - rewrite Hd, twice_pow. pose proof (n_coeffs_mono _ _ Hle). lia.
  - rewrite Hd, twice_pow. pose proof (list_max_le _ _ Hle). lia.
  - rewrite Hd, twice_pow in Dc. exists c'. split; auto.
    destruct (step_partial c c' k Hc) as (HD' & HP); auto; try lia.
    { rewrite Dc, HLc. apply length_pow. }
    split; [apply Forall_app; auto|]. split; auto.
    split; [rewrite app_length; simpl; rewrite Nat.add_1_r; exact Dc|].
    split; [intros xs; rewrite HD'; apply HD|]. intros phi Hphi.
    apply (mixed_app n) with (g := fun xs => phi (rvalue c xs)); auto.
    + apply open_dom; auto.
    + exists (fun xs => phi (rvalue c' xs)). split; [|intros xs _; reflexivity].
      intros xs Hxs. apply HP; auto. apply HD. auto.
Qed.

Lemma R_DerivativeWRT_loop orders : length orders = n -> list_sum orders <= total ->
  (forall k, k < n -> 0 < nth k orders 0 -> 1 <= nth k degs 0) ->
  exists c, R_DerivativeWRT MAXB fuel r orders = Ok c /\ dstate (cdirs orders n) c.
Proof.
  intros HO HS H1. unfold R_DerivativeWRT.
  edestruct (for_up_inv (fun i c => dstate (cdirs orders i) c)) as (c & E & HC).
  3:{ change (length (degrees (weighted_spline r))) with n. rewrite E. exists c. split; [reflexivity|exact HC]. }
  - cbv beta. split; [constructor|]. split; auto. split.
    + symmetry. etransitivity; [|apply map_id]. unfold pow_degs. apply map_ext. intros x. simpl. lia.
    + split; [tauto|]. intros phi Hp xs HX. reflexivity.
  - intros i c Hi HC. cbv beta. change (length (degrees (weighted_spline r))) with n in Hi.
    rewrite (get_ok 0) by lia. cbn [bind].
    edestruct (for_up_inv (fun j c => dstate (cdirs orders i ++ repeat i j) c)) as (c' & E & HC').
    3:{ exists c'. split; [exact E|]. rewrite cdirs_S. exact HC'. }
    + cbv beta. rewrite app_nil_r. exact HC.
    + intros j c' Hj HC'. cbv beta. replace (repeat i (S j)) with (repeat i j ++ [i]) by (rewrite <- repeat_cons; reflexivity).
      rewrite app_assoc. apply dstate_step; auto; [|lia|apply H1; lia].
      rewrite app_length, repeat_length, length_cdirs by lia.
      pose proof (sum_firstn_le orders (S i)) as HSs. rewrite (firstn_S_nth 0), list_sum_app in HSs by lia. simpl in HSs. lia.
Qed.

End Loop.

Lemma c39_derivative_spline : forall (V : Type) (ov : VOps R V) (M : VMod R V) (MAXB fuel : nat)
  (r : rspline R V) (orders : list nat),
  MAXB <= 68 -> rwf r -> length orders = length (rdegrees r) ->
  (forall k, k < length orders -> 0 < nth k orders 0 -> 1 <= nth k (rdegrees r) 0) ->
  let final := map (Nat.mul (2 ^ list_sum orders)) (rdegrees r) in
  Forall (fun p => p < MAXB) final -> (Z.of_nat (n_coeffs final) < 2 ^ 31)%Z -> list_max final + 1 < fuel ->
  exists r' f g, R_DerivativeWRT MAXB fuel r orders = Ok r' /\ rwf r' /\ rdegrees r' = final /\
    (forall xs : list R, rdomain r xs -> R_Evaluate r xs = Ok (f xs) /\ R_Evaluate r' xs = Ok (g xs)) /\
    forall (phi : V -> R) dirs, linear_form phi -> directions_of orders dirs ->
      mixed (rdomain r) dirs (fun xs => phi (f xs)) (fun xs => phi (g xs)).
Proof.
  intros V ov M MAXB fuel r orders HB Hr HO H1 final HM Hsz Hf.
  destruct (R_DerivativeWRT_loop MAXB HB fuel r Hr (list_sum orders) HM Hsz Hf orders HO (le_n _)) as (c & E & HC).
  { intros k Hk. apply H1. rewrite HO. exact Hk. }
  destruct HC as (HF & Wc & Dc & HD & HX).
  exists c, (rvalue r), (rvalue c). split; auto. split; auto. split.
  { rewrite Dc. rewrite length_cdirs by (auto; rewrite HO; auto). rewrite <- HO, firstn_all. reflexivity. }
  split.
  { intros xs Hxs. rewrite !R_Evaluate_ok; auto. apply HD. auto. }
  intros phi dirs HP Hdir. pose proof Hdir as (HFd & _). rewrite HO in HFd.
  pose proof (cdirs_directions orders) as HCd. rewrite HO in HCd.
  eapply mixed_ext_open; [apply (open_dom r Hr)|exact HFd|reflexivity| |apply (mixed_exder r Hr phi orders dirs); auto].
  eapply mixed_unique; [apply (open_dom r Hr)| | |apply (mixed_exder r Hr phi orders _ HP HO HCd)|apply HX; auto]; auto.
Qed.
