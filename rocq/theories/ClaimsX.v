(** Claims about convexity of control points under evaluation, elevation, splitting and composition. *)
From Coq Require Import Arith Lia List ZArith NArith Bool Ring Field.
From Verif Require Import Prelude Scalar Spec SpecSpline Sums Order Coord ModelBasis ModelSpline ModelPoint
  ModelRational SpecRational ProofIndex ProofBasis ProofEval ProofElevate ProofUnique ClaimsA ProofArith ClaimsB ProofCube ClaimsC
  ProofMul ProofSplit ClaimsD ProofCompose ClaimsE ProofRational ProofRational2 ProofLaws ClaimsV SpecReal SpecLaws ProofLawsReal SpecHull ProofHull.
Import ListNotations.
Local Open Scope nat_scope.

Section Hull2.
Context {T : Type} {o : SOps T} {F : SField T} {O : SOrder T}.
Add Field Tfield : (@sf_th T o F).

Lemma basis_sum degs (xs : list T) : length xs = length degs -> ssum (n_coeffs degs) (fun i => basis_at degs xs i) = s1.
Proof.
  intros H. pose proof (bezier_flat (V := T) degs xs (fun _ => s1) H) as E.
  rewrite (bezier_const (V := T) degs xs s1 H) in E. rewrite E.
  apply (ssum_ext (n_coeffs degs)). intros i _. simpl. ring.
Qed.

(** A matrix of convex combinations with [n] columns. *)
Definition rows (n m : nat) (A : nat -> nat -> T) : Prop :=
  forall j, j < m -> (forall i, i < n -> sle s0 (A j i)) /\ ssum n (A j) = s1.

(** The coefficients of [r] are those of [s], combined by [A]. *)
Definition combined {V} {ov : VOps T V} (A : nat -> nat -> T) (s r : spline V) : Prop :=
  forall j, j < length (control_points r) -> nth j (control_points r) v0 =
    vsum (length (control_points s)) (fun i => vscale (A j i) (nth i (control_points s) v0)).

Lemma rows_convex {V} {ov : VOps T V} {M : VMod T V} A (s r : spline V) :
  rows (length (control_points s)) (length (control_points r)) A -> combined A s r ->
  Forall (convex (control_points s)) (control_points r).
Proof.
  intros HA HC. apply Forall_forall. intros q Hq. destruct (In_nth _ _ v0 Hq) as (j & Hj & <-).
  destruct (HA j Hj) as (H1 & H2). exists (map (A j) (seq 0 (length (control_points s)))).
  split; [now rewrite map_length, seq_length|]. split.
  - rewrite Forall_map. apply Forall_forall. intros i Hi. apply in_seq in Hi. apply H1. lia.
  - split.
    + rewrite <- H2. apply ssum_ext. intros i Hi. now rewrite nth_map_seq by auto.
    + rewrite (HC j Hj). apply vsum_ext. intros i Hi. now rewrite nth_map_seq by auto.
Qed.

Lemma cps_len {V} (s : spline V) : wf s -> length (control_points s) = n_coeffs (degrees s).
Proof. intros (_ & _ & _ & H). auto. Qed.

(** Parts: the parameters are replaced by affine functions with values in the unit interval. *)
Lemma part_matrix D (a b : nat -> T) : D <> [] -> (forall m, m < length D -> in_unit (a m) /\ in_unit (b m)) ->
  let phi xs := map (fun m => sadd (a m) (smul (ssub (b m) (a m)) (nth m xs s0))) (seq 0 (length D)) in
  exists A, rows (n_coeffs D) (n_coeffs D) A /\
    forall (V : Type) (ov : VOps T V) (M : VMod T V) (s r : spline V), wf s -> degrees s = D ->
      isv r D (fun xs => value_at s (phi xs)) -> combined A s r.
Proof.
  intros HD Hab phi. set (n := length D).
  assert (Lphi : forall xs, length (phi xs) = n) by (intros; unfold phi; now rewrite map_length, seq_length).
  set (fs := map (fun m (xs : list T) => sadd (a m) (smul (ssub (b m) (a m)) (nth m xs s0))) (seq 0 n)).
  assert (Ephi : forall xs, map (fun f : list T -> T => f xs) fs = phi xs) by (intros; unfold fs, phi; now rewrite map_map).
  destruct (convex_matrix D (n_coeffs D) (fun i xs => basis_at D (phi xs) i) HD) as (A & HA & HC).
  - intros i Hi. eapply npos_ext; [apply (npos_basis n) with (Es := map (single n) (seq 0 n)) (degs := D) (fs := fs) (i := i)| |].
    + unfold n. destruct D; [congruence|simpl; lia].
    + now rewrite map_length, seq_length.
    + unfold fs. now rewrite map_length, seq_length.
    + rewrite Forall_map. apply Forall_forall. intros. apply length_single.
    + auto.
    + intros k Hk. fold n in Hk. unfold fs. rewrite !nth_map_seq by auto. destruct (Hab k Hk). now apply npos_affine.
    + apply wdeg_single.
    + intros xs HX. cbv beta. now rewrite Ephi.
  - intros xs HX. apply basis_sum. apply Lphi.
  - exists A. split; [exact HA|]. intros V ov M s r Hs Hd Hr j Hj.
    assert (Lr : length (control_points r) = n_coeffs D) by (destruct Hr as (W & <- & _); now apply cps_len).
    assert (Ls : length (control_points s) = n_coeffs D) by (rewrite <- Hd; now apply cps_len).
    rewrite Ls. apply (HC V ov M (control_points s) r Ls); [|lia].
    eapply isv_ext; [exact Hr|reflexivity|]. intros xs HX. cbv beta. unfold value_at. rewrite Hd. apply bezier_flat. apply Lphi.
Qed.

Lemma phi_upd n k (v : T) (xs : list T) (a b : T) : length xs = n -> k < n ->
  v = sadd a (smul (ssub b a) (nth k xs s0)) ->
  map (fun m => sadd (if m =? k then a else s0) (smul (ssub (if m =? k then b else s1) (if m =? k then a else s0)) (nth m xs s0)))
    (seq 0 n) = upd_list xs k v.
Proof.
  intros HL Hk Hv. apply (nth_ext _ _ s0 s0); [now rewrite map_length, seq_length, length_upd|].
  intros j Hj. rewrite map_length, seq_length in Hj. rewrite nth_map_seq by auto. rewrite nth_upd by lia.
  destruct (j =? k) eqn:E; [apply Nat.eqb_eq in E; subst j; auto|]. ring.
Qed.

Lemma unit_0 : in_unit (s0 : T).
Proof. split; [apply sle_refl|apply sle_0_1]. Qed.
Lemma unit_1 : in_unit (s1 : T).
Proof. split; [apply sle_0_1|apply sle_refl]. Qed.

(** One piece [a, b] of direction [k]. *)
Lemma piece_matrix D k (a b : T) : k < length D -> in_unit a -> in_unit b ->
  exists A, rows (n_coeffs D) (n_coeffs D) A /\
    forall (V : Type) (ov : VOps T V) (M : VMod T V) (s r : spline V), wf s -> degrees s = D ->
      isv r D (fun xs => value_at s (upd_list xs k (sadd a (smul (ssub b a) (nth k xs s0))))) -> combined A s r.
Proof.
  intros Hk Ha Hb. assert (HD : D <> []) by (destruct D; [simpl in Hk; lia|discriminate]).
  destruct (part_matrix D (fun m => if m =? k then a else s0) (fun m => if m =? k then b else s1) HD) as (A & HA & HC).
  { intros m Hm. destruct (m =? k); auto using unit_0, unit_1. }
  exists A. split; auto. intros V ov M s r Hs Hd Hr. apply HC; auto. eapply isv_ext; [exact Hr|reflexivity|].
  intros xs HX. cbv beta. f_equal. symmetry. apply phi_upd; auto.
Qed.

Lemma upd_add_single n k D : length D = n -> k < n -> upd_list D k (S (nth k D 0)) = map2 Nat.add D (single n k).
Proof.
  intros HL Hk. apply (nth_ext _ _ 0 0); [rewrite length_upd, length_map2_add; auto; rewrite length_single; auto|].
  intros j Hj. rewrite length_upd in Hj. rewrite nth_upd by lia.
  rewrite (ProofMul.nth_map2_add 68 (le_n _)) by (rewrite ?length_single; lia).
  rewrite nth_single by lia. destruct (Nat.eqb_spec j k) as [->|]; lia.
Qed.

Lemma elevate_matrix D k : k < length D ->
  exists A, rows (n_coeffs D) (n_coeffs (upd_list D k (S (nth k D 0)))) A /\
    forall (V : Type) (ov : VOps T V) (M : VMod T V) (s r : spline V), wf s -> degrees s = D ->
      isv r (upd_list D k (S (nth k D 0))) (value_at s) -> combined A s r.
Proof.
  intros Hk. assert (HD : D <> []) by (destruct D; [simpl in Hk; lia|discriminate]). set (n := length D).
  set (fs := map (fun m (xs : list T) => sadd s0 (smul (ssub s1 s0) (nth m xs s0))) (seq 0 n)).
  assert (Efs : forall xs : list T, length xs = n -> map (fun f : list T -> T => f xs) fs = xs).
  { intros xs HX. unfold fs. rewrite map_map. apply (nth_ext _ _ s0 s0); [now rewrite map_length, seq_length|].
    intros j Hj. rewrite map_length, seq_length in Hj. rewrite nth_map_seq by auto. ring. }
  destruct (convex_matrix (upd_list D k (S (nth k D 0))) (n_coeffs D) (fun i xs => basis_at D xs i)) as (A & HA & HC).
  - intros E. apply (f_equal (@length nat)) in E. rewrite length_upd in E. simpl in E. lia.
  - intros i Hi.
    assert (B : npos D (fun xs : list T => basis_at D xs i)).
    { eapply npos_ext; [apply (npos_basis n) with (Es := map (single n) (seq 0 n)) (degs := D) (fs := fs) (i := i)| |].
      + unfold n. lia.
      + now rewrite map_length, seq_length.
      + unfold fs. now rewrite map_length, seq_length.
      + rewrite Forall_map. apply Forall_forall. intros. apply length_single.
      + auto.
      + intros m Hm. fold n in Hm. unfold fs. rewrite !nth_map_seq by auto. apply npos_affine; auto using unit_0, unit_1.
      + apply wdeg_single.
      + intros xs HX. cbv beta. rewrite Efs; auto. rewrite HX. unfold n.
        rewrite length_wdeg; auto. rewrite Forall_map. apply Forall_forall. intros. apply length_single. }
    eapply npos_ext; [apply (npos_mul D (single n k) (fun xs => basis_at D xs i) (fun xs => sadd s1 (smul (ssub s1 s1) (nth k xs s0))) HD)| |].
    + apply length_single.
    + exact B.
    + apply npos_line; auto using sle_0_1.
    + symmetry. now apply upd_add_single.
    + intros xs HX. cbv beta. ring.
  - intros xs HX. rewrite length_upd in HX. now apply basis_sum.
  - exists A. split; [exact HA|]. intros V ov M s r Hs Hd Hr j Hj.
    assert (Lr : length (control_points r) = n_coeffs (upd_list D k (S (nth k D 0)))) by (destruct Hr as (W & <- & _); now apply cps_len).
    assert (Ls : length (control_points s) = n_coeffs D) by (rewrite <- Hd; now apply cps_len).
    rewrite Ls. apply (HC V ov M (control_points s) r Ls); [|lia].
    eapply isv_ext; [exact Hr|reflexivity|]. intros xs HX. rewrite length_upd in HX. unfold value_at. rewrite Hd. now apply bezier_flat.
Qed.

(** Composition with a spline in the unit cube. *)
Lemma npos_cweight {V} {ov : VOps T V} d (inner : spline (point T d)) (outer : spline V) i : wf inner ->
  (forall p k, In p (control_points inner) -> k < d -> in_unit (coord _ p k)) -> length (degrees outer) = d ->
  i < n_coeffs (degrees outer) ->
  npos (map (Nat.mul (list_sum (degrees outer))) (degrees inner)) (cweight d inner outer i).
Proof.
  intros Hi HC HL Hx. set (E := degrees inner). set (D := degrees outer).
  set (fs := map (fun k (xs : list T) => coord d (value_at inner xs) k) (seq 0 d)).
  eapply npos_ext; [apply (npos_basis (length E)) with (Es := repeat E (length D)) (degs := D) (fs := fs) (i := i)| |].
  - destruct Hi as (HE & _). unfold E. destruct (degrees inner); [congruence|simpl; lia].
  - apply repeat_length.
  - unfold fs. now rewrite map_length, seq_length.
  - apply Forall_forall. intros e He. now rewrite (repeat_spec _ _ _ He).
  - exact Hx.
  - intros k Hk. assert (Hk' : k < d) by (unfold D in Hk; lia).
    rewrite (nth_indep _ [] E) by (now rewrite repeat_length). rewrite nth_repeat. unfold fs. rewrite !nth_map_seq by auto.
    now apply npos_coord.
  - apply wdeg_same.
  - intros xs HX. unfold cweight. fold D. f_equal. unfold fs. rewrite map_map.
    apply (nth_ext _ _ s0 s0); [now rewrite map_length, seq_length, plist_length|].
    intros j Hj. rewrite map_length, seq_length in Hj. rewrite nth_map_seq by auto. reflexivity.
Qed.

Lemma wf_n {V} (s : spline V) : wf s -> length (control_points s) = n_coeffs (degrees s).
Proof. exact (cps_len s). Qed.

Lemma piece_isv {V} {ov : VOps T V} (s b : spline V) k l r : piece s b k l r ->
  isv b (degrees s) (fun xs => value_at s (upd_list xs k (sadd l (smul (ssub r l) (nth k xs s0))))).
Proof. intros (H1 & H2 & H3). split; auto. Qed.

Lemma piece_convex {V} {ov : VOps T V} {M : VMod T V} (s b : spline V) k l r : wf s -> k < length (degrees s) ->
  in_unit l -> in_unit r -> piece s b k l r -> Forall (convex (control_points s)) (control_points b).
Proof.
  intros Hs Hk Hl Hr HP. destruct (piece_matrix (degrees s) k l r Hk Hl Hr) as (A & HA & HC).
  assert (HP' := HP). destruct HP' as (Wb & Db & _).
  apply (rows_convex A); [rewrite !wf_n, Db by auto; exact HA|]. apply HC; auto; now apply piece_isv.
Qed.

(** The bounds of the pieces lie in the unit interval. *)
Lemma bounds_unit (planes : list T) : let bounds := s0 :: planes ++ [s1] in
  (forall i, S i < length bounds -> slt (nth i bounds s0) (nth (S i) bounds s0)) ->
  forall i, i < length bounds -> in_unit (nth i bounds s0).
Proof.
  intros bounds HB.
  assert (LB : length bounds = S (S (length planes))) by (unfold bounds; simpl; rewrite app_length; simpl; lia).
  assert (A : forall n i, i + n < length bounds -> sle (nth i bounds s0) (nth (i + n) bounds s0)).
  { induction n as [|n IH]; intros i Hi; [rewrite Nat.add_0_r; apply sle_refl|].
    eapply sle_trans; [apply (IH i); lia|]. rewrite Nat.add_succ_r. apply slt_sle, HB. lia. }
  intros i Hi. split.
  - apply (A i 0). lia.
  - assert (E1 : nth (S (length planes)) bounds s0 = s1).
    { unfold bounds. cbn [nth]. rewrite app_nth2 by lia. now rewrite Nat.sub_diag. }
    rewrite <- E1. replace (S (length planes)) with (i + (S (length planes) - i)) by lia. apply A. lia.
Qed.

Lemma min_pos n (f : nat -> T) : (forall i, i < n -> slt s0 (f i)) -> exists m, slt s0 m /\ forall i, i < n -> sle m (f i).
Proof.
  induction n as [|n IH]; intros H.
  - exists s1. split; [apply so_01|intros; lia].
  - destruct IH as (m & Hm & HL); [auto|]. destruct (sle_total m (f n)) as [L|L].
    + exists m. split; auto. intros i Hi. destruct (Nat.eq_dec i n) as [->|]; auto. apply HL. lia.
    + exists (f n). split; [auto|]. intros i Hi. destruct (Nat.eq_dec i n) as [->|]; [apply sle_refl|].
      eapply sle_trans; [exact L|]. apply HL. lia.
Qed.

Lemma combine_nth_map {A B C} (f : A -> B -> C) (l : list A) (m : list B) i a b c : length l = length m -> i < length l ->
  nth i (map (fun '(x, y) => f x y) (combine l m)) c = f (nth i l a) (nth i m b).
Proof.
  revert m i. induction l as [|x l IH]; intros [|y m] [|i] HL Hi; simpl in *; try discriminate; try lia; auto.
  apply IH; lia.
Qed.

Lemma rational_convex {V} {ov : VOps T V} {M : VMod T V} A (r r' : rspline T V) : rwf r -> rwf r' ->
  Forall (fun w => slt s0 w) (control_points (weight_function r)) ->
  rows (n_coeffs (rdegrees r)) (n_coeffs (rdegrees r')) A ->
  combined A (weighted_spline r) (weighted_spline r') -> combined A (weight_function r) (weight_function r') ->
  Forall (fun w => slt s0 w) (control_points (weight_function r')) /\ Forall (convex (unweighted r)) (unweighted r').
Proof.
  intros (Wu & Ww & Dw) (Wu' & Ww' & Dw') HP HA HU HW. unfold rdegrees in *.
  pose proof (wf_n _ Wu) as Lu. pose proof (wf_n _ Ww) as Lw. pose proof (wf_n _ Wu') as Lu'. pose proof (wf_n _ Ww') as Lw'.
  rewrite Dw in Lw. rewrite Dw' in Lw'. unfold combined in HU, HW. rewrite Lu, Lu' in HU. rewrite Lw, Lw' in HW.
  set (n := n_coeffs (degrees (weighted_spline r))) in *. set (m := n_coeffs (degrees (weighted_spline r'))) in *.
  set (u i := nth i (control_points (weighted_spline r)) v0) in *. set (w i := nth i (control_points (weight_function r)) (v0 : T)) in *.
  assert (Pw : forall i, i < n -> slt s0 (w i)).
  { intros i Hi. rewrite Forall_forall in HP. apply HP. apply nth_In. lia. }
  assert (Pw' : forall j, j < m -> slt s0 (nth j (control_points (weight_function r')) (v0 : T))).
  { intros j Hj. destruct (min_pos n w Pw) as (c & Hc & Lc). destruct (HA j Hj) as (A0 & A1).
    apply slt_le_trans with c; auto. rewrite (HW j Hj).
    replace c with (ssum n (fun i => smul c (A j i))) at 1 by (rewrite ssum_scale, A1; ring).
    apply (ssum_le n). intros i Hi. simpl. replace (smul c (A j i)) with (smul (A j i) c) by ring. apply sle_mul_l; [apply A0; exact Hi|exact (Lc i Hi)]. }
  split.
  { apply Forall_forall. intros x Hx. destruct (In_nth _ _ v0 Hx) as (j & Hj & <-). apply Pw'. lia. }
  apply Forall_forall. intros q Hq.
  assert (LU : length (unweighted r) = n) by (unfold unweighted; rewrite map_length, combine_length; lia).
  assert (LU' : length (unweighted r') = m) by (unfold unweighted; rewrite map_length, combine_length; lia).
  destruct (In_nth _ _ v0 Hq) as (j & Hj & <-). rewrite LU' in Hj. destruct (HA j Hj) as (A0 & A1). specialize (Pw' j Hj).
  unfold unweighted at 2.
  rewrite (combine_nth_map (fun p c => vscale (sdiv s1 c) p) _ _ j v0 (v0 : T)) by lia. rewrite (HU j Hj).
  set (W := nth j (control_points (weight_function r')) (v0 : T)) in *.
  assert (EW : W = ssum n (fun i => smul (A j i) (w i))) by exact (HW j Hj). clearbody W.
  exists (map (fun i => sdiv (smul (A j i) (w i)) W) (seq 0 n)). rewrite LU.
  split; [now rewrite map_length, seq_length|]. split.
  { rewrite Forall_map. apply Forall_forall. intros i Hi. apply in_seq in Hi. apply sle_div; auto.
    apply sle_mul_0; [apply A0; lia|apply slt_sle, Pw; lia]. }
  assert (NW : W <> s0) by (intros E; apply (slt_neq _ _ Pw'); auto). split.
  { rewrite (ssum_ext n _ (fun i => smul (sdiv s1 W) (smul (A j i) (w i)))).
    - rewrite ssum_scale, <- EW. field. exact NW.
    - intros i Hi. rewrite nth_map_seq by auto. field. exact NW. }
  rewrite <- vsum_scale. apply vsum_ext. intros i Hi. rewrite nth_map_seq by auto. unfold unweighted.
  rewrite (combine_nth_map (fun p c => vscale (sdiv s1 c) p) _ _ i v0 (v0 : T)) by lia. fold (u i) (w i).
  rewrite <- !vm_mul. f_equal. field. split; [|exact NW]. intros E. apply (slt_neq _ _ (Pw i Hi)). auto.
Qed.
End Hull2.

(** ** C76 *)
Lemma c76_evaluate : forall (T V : Type) (o : SOps T) (ov : VOps T V) (F : SField T) (M : VMod T V) (O : SOrder T)
  (s : spline V) (xs : list T), wf s -> length xs = length (degrees s) -> Forall in_unit xs ->
  exists p, Evaluate s xs = Ok p /\ convex (T := T) (control_points s) p.
Proof.
  intros T V o ov F M O s xs Hs HX HU. exists (value_at s xs). split; [now apply Evaluate_value|].
  exists (map (fun i => basis_at (degrees s) xs i) (seq 0 (length (control_points s)))).
  split; [now rewrite map_length, seq_length|]. split.
  - rewrite Forall_map. apply Forall_forall. intros i _. now apply basis_nonneg.
  - rewrite wf_n by auto. split.
    + rewrite <- (basis_sum (degrees s) xs HX). apply ssum_ext. intros i Hi. now rewrite nth_map_seq by auto.
    + unfold value_at. rewrite bezier_flat by auto. apply vsum_ext. intros i Hi. now rewrite nth_map_seq by auto.
Qed.

Lemma c76_order_elevate : forall (T V : Type) (o : SOps T) (ov : VOps T V) (F : SField T) (M : VMod T V) (O : SOrder T)
  (s : spline V) (k : nat), wf s -> k < length (degrees s) ->
  (Z.of_nat (n_coeffs (upd_at k S (degrees s))) < 2 ^ 31)%Z ->
  exists r, OrderElevate (T := T) s k = Ok r /\ Forall (convex (T := T) (control_points s)) (control_points r).
Proof.
  intros T V o ov F M O s k Hs Hk HZ. rewrite (upd_at_upd 0) in HZ by auto.
  destruct (elevate_isv s _ _ k (isv_self s Hs) Hk HZ) as (r & E & Hr). exists r. split; auto.
  destruct (elevate_matrix (degrees s) k Hk) as (A & HA & HC).
  assert (Hr' := Hr). destruct Hr' as (Wr & Dr & _).
  apply (rows_convex A); [rewrite !wf_n, Dr by auto; exact HA|]. apply HC; auto.
Qed.

Lemma c76_split : forall (T V : Type) (o : SOps T) (ov : VOps T V) (F : SField T) (M : VMod T V) (O : SOrder T)
  (s : spline V) (planes : list T) (k : nat), wf s -> k < length (degrees s) ->
  let bounds := s0 :: planes ++ [s1] in
  (forall i, S i < length bounds -> slt (nth i bounds s0) (nth (S i) bounds s0)) ->
  (exists parts, SplitAtPositions s planes k = Ok parts /\ length parts = S (length planes) /\
    Forall (fun b => Forall (convex (T := T) (control_points s)) (control_points b)) parts) /\
  forall x, slt s0 x -> slt x s1 -> exists a b, SplitAtPosition s x k = Ok [a; b] /\
    Forall (convex (T := T) (control_points s)) (control_points a) /\
    Forall (convex (T := T) (control_points s)) (control_points b).
Proof.
  intros T V o ov F M O s planes k Hs Hk bounds HB. split.
  - destruct (Positions_ok s planes k Hs Hk HB) as (parts & E & HL & HP). exists parts. split; auto. split; auto.
    apply Forall_forall. intros b Hb. destruct (In_nth _ _ s Hb) as (i & Hi & <-).
    assert (LB : length bounds = S (S (length planes))) by (unfold bounds; simpl; rewrite app_length; simpl; lia).
    eapply piece_convex; [auto|exact Hk| | |apply HP; lia]; apply (bounds_unit planes HB); fold bounds; lia.
  - intros x H0 H1. destruct (piece_first s k x Hs Hk H0 H1) as (a & b & E & PA & PB). exists a, b. split; auto.
    assert (in_unit x) by (split; now apply slt_sle).
    split; (eapply piece_convex; [exact Hs|exact Hk| | |eassumption]); auto using unit_0, unit_1.
Qed.

Lemma c76_compose : forall (T V : Type) (o : SOps T) (ov : VOps T V) (F : SField T) (M : VMod T V) (O : SOrder T)
  (MAXB : nat) (outer : spline V) (inner : spline (point T (length (degrees outer)))),
  MAXB <= 68 -> wf outer -> wf inner ->
  (forall p k, In p (control_points inner) -> k < length (degrees outer) -> in_unit (coord _ p k)) ->
  Forall (fun p => list_sum (degrees outer) * p < MAXB) (degrees inner) ->
  Forall (fun p => p < MAXB) (degrees outer) ->
  exists r ts, Compose MAXB outer inner = Ok r /\ ComposeSensitivity MAXB outer inner = Ok ts /\
    Forall (convex (T := T) (control_points outer)) (control_points r) /\
    length ts = length (control_points outer) /\
    Forall (fun t => degrees t = degrees r /\ Forall (fun c => sle s0 c) (control_points t)) ts /\
    (** the sensitivities are the weights of the combinations *)
    let weight i j := nth j (nth i (map control_points ts) []) s0 in
    forall j, j < length (control_points r) ->
      ssum (length ts) (fun i => weight i j) = s1 /\
      nth j (control_points r) v0 = vsum (length ts) (fun i => vscale (weight i j) (nth i (control_points outer) v0)).
Proof.
  intros T V o ov F M O MAXB outer inner HB Ho Hi HC HF HM.
  destruct (Compose_ok MAXB HB _ inner Hi HC outer Ho eq_refl HF HM) as (r & E & Hr & Dr & Vr).
  destruct (Sensitivity_ok MAXB HB _ inner Hi HC outer Ho eq_refl HF HM) as (ts & Et & Lt & Ht).
  exists r, ts. split; [exact E|]. split; [exact Et|]. set (d := length (degrees outer)) in *.
  pose proof (wf_n outer Ho) as Lo. set (n := n_coeffs (degrees outer)) in *.
  set (D := map (Nat.mul (list_sum (degrees outer))) (degrees inner)) in *.
  assert (HD : D <> []) by (destruct Hi as (HE & _); unfold D; destruct (degrees inner); [congruence|discriminate]).
  pose proof (wf_n r Hr) as Lr. rewrite Dr in Lr.
  set (weight i j := nth j (nth i (map control_points ts) []) s0).
  assert (It : forall t, In t ts -> exists i, i < n /\ isv t D (cweight d inner outer i)).
  { intros t H. destruct (In_nth_error _ _ H) as (i & Ei).
    assert (Hx : i < n) by (rewrite <- Lt; apply nth_error_Some; congruence).
    destruct (Ht i Hx) as (t' & Et' & (W & Dd & Vv)). rewrite Ei in Et'. injection Et' as <-. exists i. split; auto.
    split; auto. split; auto. intros xs HX. apply Vv. unfold D in HX. now rewrite map_length in HX. }
  assert (Nt : Forall (fun t => degrees t = degrees r /\ Forall (fun c => sle s0 c) (control_points t)) ts).
  { apply Forall_forall. intros t H. destruct (It t H) as (i & Hx & I). split; [rewrite Dr; apply I|].
    eapply npos_isv; [exact I|]. apply npos_cweight; auto. }
  assert (Vw : forall i xs, i < n -> length xs = length D -> cweight d inner outer i xs = bezier D xs (weight i)).
  { intros i xs Hx HX. destruct (Ht i Hx) as (t & Et' & (W & Dd & Vv)).
    rewrite <- Vv by (unfold D in HX; now rewrite map_length in HX). unfold value_at. rewrite Dd. fold D.
    apply bezier_ext. intros j Hj. unfold weight. f_equal.
    rewrite (nth_indep _ [] (control_points t)) by (rewrite map_length; lia). rewrite map_nth. f_equal.
    symmetry. now apply nth_error_nth. }
  assert (S1 : forall j, j < length (control_points r) -> ssum (length ts) (fun i => weight i j) = s1).
  { intros j Hj. rewrite Lt. apply (coef_unique (V := T) D (fun j => ssum n (fun i => weight i j)) (fun _ => s1) HD); [|lia].
    intros xs HX. rewrite (bezier_const (V := T) D xs s1 HX).
    transitivity (ssum n (fun i => bezier D xs (weight i))); [exact (bezier_vsum (V := T) D xs n weight)|].
    rewrite (ssum_ext n _ (fun i => basis_at (degrees outer) (plist d (value_at inner xs)) i)).
    - apply basis_sum. now rewrite plist_length.
    - intros i Hx. rewrite <- Vw by auto. reflexivity. }
  assert (S2 : forall j, j < length (control_points r) -> nth j (control_points r) v0 =
    vsum (length ts) (fun i => vscale (weight i j) (nth i (control_points outer) v0))).
  { intros j Hj. rewrite Lt.
    apply (coef_unique D (fun j => nth j (control_points r) v0)
      (fun j => vsum n (fun i => vscale (weight i j) (nth i (control_points outer) v0))) HD); [|lia].
    intros xs HX. rewrite (bezier_vsum D xs n (fun i j => vscale (weight i j) (nth i (control_points outer) v0))).
    transitivity (value_at r xs); [unfold value_at; now rewrite Dr|].
    rewrite Vr by (unfold D in HX; now rewrite map_length in HX). apply vsum_ext. intros i Hx.
    rewrite Vw by auto. symmetry. apply bezier_scale_r. }
  split; [|split; [congruence|split; [exact Nt|intros w j Hj; split; [apply S1|apply S2]; auto]]].
  apply (rows_convex (fun j i => weight i j)).
  - intros j Hj. rewrite Lo, <- Lt. split; [|now apply S1]. intros i Hx. unfold weight.
    destruct (nth_error ts i) as [t|] eqn:Ei; [|apply nth_error_None in Ei; lia].
    rewrite (nth_indep _ [] (control_points t)) by (rewrite map_length; lia). rewrite map_nth, (nth_error_nth ts i t Ei).
    assert (H := nth_error_In _ _ Ei). rewrite Forall_forall in Nt. destruct (Nt t H) as (Dt & N). rewrite Forall_forall in N.
    apply N, nth_In. destruct (It t H) as (i' & _ & (Wt & _)). rewrite wf_n, Dt, <- wf_n by auto. exact Hj.
  - intros j Hj. rewrite Lo, <- Lt. now apply S2.
Qed.

Lemma c76_bounds : forall (T : Type) (o : SOps T) (F : SField T) (O : SOrder T) (d k : nat) (P : list (point T d))
  (q : point T d) (lo hi : T), k < d -> convex (T := T) P q ->
  (forall p, In p P -> sle lo (coord d p k) /\ sle (coord d p k) hi) ->
  sle lo (coord d q k) /\ sle (coord d q k) hi.
Proof.
  intros T o F O d k P q lo hi Hk (w & HL & HN & HS & ->) HB. rewrite coord_vsum.
  rewrite Forall_forall in HN. assert (N : forall i, i < length P -> sle s0 (nth i w s0)).
  { intros i Hi. apply HN, nth_In. lia. }
  assert (B : forall i, i < length P -> sle lo (coord d (nth i P v0) k) /\ sle (coord d (nth i P v0) k) hi).
  { intros i Hi. apply HB, nth_In. lia. }
  pose proof (F_R (sf_th (SField := F))) as RR.
  assert (E : forall c : T, c = ssum (length P) (fun i => smul (nth i w s0) c)).
  { intros c. transitivity (smul c s1); [rewrite (Rmul_comm RR); symmetry; apply (Rmul_1_l RR)|].
    rewrite <- HS, <- ssum_scale. apply ssum_ext. intros. apply (Rmul_comm RR). }
  split.
  - rewrite (E lo). apply ssum_le. intros i Hi. rewrite coord_scale. apply sle_mul_l; [auto|apply B; auto].
  - rewrite (E hi). apply ssum_le. intros i Hi. rewrite coord_scale. apply sle_mul_l; [auto|apply B; auto].
Qed.

Lemma c76_rational_elevate : forall (T V : Type) (o : SOps T) (ov : VOps T V) (F : SField T) (M : VMod T V) (O : SOrder T)
  (r : rspline T V) (k : nat), rwf r -> k < length (rdegrees r) ->
  (Z.of_nat (n_coeffs (upd_at k S (rdegrees r))) < 2 ^ 31)%Z ->
  Forall (fun w => slt s0 w) (control_points (weight_function r)) ->
  exists r', R_OrderElevate r k = Ok r' /\ Forall (fun w => slt s0 w) (control_points (weight_function r')) /\
    Forall (convex (T := T) (unweighted r)) (unweighted r').
Proof.
  intros T V o ov F M O r k Hr Hk HZ HP. rewrite (upd_at_upd 0) in HZ by auto.
  destruct (R_OrderElevate_ok r k Hr Hk HZ) as (r' & E & Hr' & Dr & HV). exists r'. split; auto.
  destruct (elevate_matrix (rdegrees r) k Hk) as (A & HA & HC).
  assert (X := Hr). destruct X as (Wu & Ww & Dw). assert (X := Hr'). destruct X as (Wu' & Ww' & Dw'). unfold rdegrees in *.
  apply (rational_convex A); auto.
  - unfold rdegrees. rewrite Dr. exact HA.
  - apply HC; auto. split; [auto|split; [auto|]]. intros xs HX. rewrite length_upd in HX. apply HV. auto.
  - apply (HC T _ VMod_scalar); auto. split; [auto|split; [congruence|]]. intros xs HX. rewrite length_upd in HX. apply HV. auto.
Qed.

Lemma c76_rational_split : forall (T V : Type) (o : SOps T) (ov : VOps T V) (F : SField T) (M : VMod T V) (O : SOrder T)
  (r : rspline T V) (x : T) (k : nat), rwf r -> k < length (rdegrees r) -> slt s0 x -> slt x s1 ->
  Forall (fun w => slt s0 w) (control_points (weight_function r)) ->
  exists a b, R_SplitAtPosition r x k = Ok [a; b] /\ Forall (fun p =>
    Forall (fun w => slt s0 w) (control_points (weight_function p)) /\
    Forall (convex (T := T) (unweighted r)) (unweighted p)) [a; b].
Proof.
  intros T V o ov F M O r x k Hr Hk H0 H1 HP.
  destruct (rpiece_first r k x Hr Hk H0 H1) as (a & b & E & PA & PB). exists a, b. split; auto.
  assert (in_unit x) by (split; now apply slt_sle).
  assert (G : forall c l m, in_unit l -> in_unit m -> rpiece r c k l m ->
    Forall (fun w => slt s0 w) (control_points (weight_function c)) /\
    Forall (convex (T := T) (unweighted r)) (unweighted c)).
  { intros c l m Hl Hm PC. destruct (rpiece_wf r c k l m Hr PC) as (Wc & Dc).
    destruct (piece_matrix (rdegrees r) k l m Hk Hl Hm) as (A & HA & HC).
    assert (X := Hr). destruct X as (Wu & Ww & Dw). destruct PC as (P1 & P2).
    apply (rational_convex A); [auto|auto|auto| | |].
    - rewrite Dc. exact HA.
    - apply (HC V ov M); auto; exact (piece_isv _ _ _ _ _ P1).
    - apply (HC T _ VMod_scalar); auto. unfold rdegrees. rewrite <- Dw. exact (piece_isv _ _ _ _ _ P2). }
  constructor; [|constructor; [|constructor]]; [apply (G a s0 x)|apply (G b x s1)]; auto using unit_0, unit_1.
Qed.
