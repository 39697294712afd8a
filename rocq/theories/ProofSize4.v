(** Proofs about the rational operations with sizes in 64 bits. *)
From Coq Require Import Arith Lia List ZArith NArith Bool.
From Verif Require Import Prelude Scalar Spec ModelBasis ModelPoint ModelSpline ModelRational SpecSpline SpecRational ModelSize ModelSize2 ModelSize3 ProofIndex ProofSize ProofSize2 ProofSize3 ProofMul ProofRational ClaimsSize2.
Import ListNotations.
Local Open Scope nat_scope.

Lemma for_up_pc {A} (I : nat -> A -> Prop) (f : nat -> A -> res A) n lo a r : I lo a ->
  (forall i x y, lo <= i < lo + n -> I i x -> f i x = Ok y -> I (S i) y) -> for_up lo n f a = Ok r -> I (lo + n) r.
Proof. intros H0 HS E. refine (proj2 (for_up_pci2 I f f n lo a r H0 _ E)). intros; split; eauto. Qed.
Section Shape.
Context {T V : Type} {o : SOps T} {ov : VOps T V}.
Lemma combine_shape op n (x y r : spline V) : combine_assign op n x y = Ok r -> same_shape r x.
Proof.
  intros E. unfold combine_assign in E. apply bind_ok in E. destruct E as (c & E & E'). injection E' as <-. repeat split. cbn [with_cps control_points].
  refine (for_up_keep (fun c => length c = length (control_points x)) _ _ _ _ _ eq_refl _ E).
  intros i a b _ Ha F. apply bind_ok in F. destruct F as (u & _ & F). apply bind_ok in F. destruct F as (v & _ & F). apply set_lt in F. lia.
Qed.
Lemma mk_self (s : spline V) : wf s -> Spline_deg_points (degrees s) (control_points s) = Ok s.
Proof.
  intros (Hd & Hn & HO & HL). rewrite Spline_deg_points_ok by auto. destruct s as [da na oa ca]; cbn [degrees number_of_control_points index_offsets control_points] in *. unfold mk. congruence.
Qed.
Lemma sub_shape fuel (s t r : spline V) : wf s -> spline_sub fuel s t = Ok r -> same_shape r s.
Proof.
  intros Hw E. unfold spline_sub in E. rewrite mk_self in E by auto. cbn [bind] in E.
  apply bind_ok in E. destruct E as (s' & E1 & E).
  assert (Q : s' = s).
  { refine (for_up_keep (fun x => x = s) _ _ _ _ _ eq_refl _ E1). intros i a b _ -> F.
    apply bind_ok in F. destruct F as (q & _ & F). apply bind_ok in F. destruct F as (p & _ & F).
    destruct (p <? q); [exfalso; eapply while_true; exact F|]. destruct fuel; [discriminate|]. cbn [while_] in F. congruence. }
  rewrite Q in E. apply bind_ok in E. destruct E as (t' & _ & E). apply combine_shape in E. exact E.
Qed.
Lemma derivative_shape MAXB (s r : spline V) ks : wf s -> DerivativeWRT MAXB s ks = Ok r ->
  wf r /\ length (degrees r) = length (degrees s) /\
  forall j, j < length (degrees s) -> nth j ks 0 <= nth j (degrees s) 0 /\ nth j (degrees r) 0 = nth j (degrees s) 0 - nth j ks 0.
Proof.
  intros Hw E. unfold DerivativeWRT in E. pose proof Hw as (Hd & _).
  apply bind_ok in E. destruct E as ((nd & cps) & E1 & E).
  set (I := fun (i : nat) (st : list nat * list V) => length (fst st) = length (degrees s) /\
    forall j, j < length (degrees s) -> (j < i -> nth j ks 0 <= nth j (degrees s) 0 /\ nth j (fst st) 0 = nth j (degrees s) 0 - nth j ks 0) /\ (i <= j -> nth j (fst st) 0 = nth j (degrees s) 0)).
  edestruct (for_up_pc I) as (L & A); [| |exact E1|].
  { split; cbn [fst]; auto. intros j Hj. split; [lia|auto]. }
  { intros i (a & c) (a' & c') Hi (L & A) F. cbn [fst] in *.
    apply bind_ok in F. destruct F as (k & F1 & F). apply (get_inv 0) in F1. destruct F1 as (Lk & Ek).
    destruct (Nat.eqb_spec k 0) as [K|K].
    - injection F as <- <-. split; cbn [fst]; auto. intros j Hj. destruct (A j Hj) as (A1 & A2). split; [|intros; apply A2; lia].
      intros Hji. destruct (Nat.eq_dec j i) as [->|Hne]; [|apply A1; lia]. rewrite A2 by lia. lia.
    - apply bind_ok in F. destruct F as (q & F2 & F). apply (get_inv 0) in F2. destruct F2 as (Lq & Eq).
      apply bind_ok in F. destruct F as (u & Fu & F). assert (Hkq : k <= q) by (destruct (Nat.ltb_spec q k); [discriminate|auto]).
      apply bind_ok in F. destruct F as (a1 & F3 & F). apply set_inv in F3. destruct F3 as (_ & ->).
      apply bind_ok in F. destruct F as (? & _ & F). apply bind_ok in F. destruct F as (? & _ & F). apply bind_ok in F. destruct F as (? & _ & F).
      apply bind_ok in F. destruct F as (? & _ & F). injection F as <- <-. split; cbn [fst]; [rewrite length_upd; auto|].
      intros j Hj. rewrite nth_upd by lia. destruct (A j Hj) as (A1 & A2). destruct (Nat.eqb_spec j i) as [->|Hne]; split; intros; try lia.
      all: first [apply A1; lia|apply A2; lia|pose proof (A2 (le_n _)); lia]. }
  cbn [fst] in *. apply bind_ok in E. destruct E as (dv & E2 & E). assert (N : nd <> []) by (intros ->; destruct (degrees s); [congruence|discriminate]).
  rewrite Spline_deg_ok in E2 by auto. injection E2 as <-. apply bind_ok in E. destruct E as (dc & E3 & E). injection E as <-.
  assert (Lc : length dc = n_coeffs nd).
  { refine (for_up_keep (fun c => length c = n_coeffs nd) _ _ _ _ _ _ _ E3); [cbn; apply repeat_length|].
    intros i a b _ Ha F. do 3 (apply bind_ok in F; destruct F as (? & _ & F)). apply set_lt in F. lia. }
  split; [unfold wf; cbn; auto|]. split; [exact L|]. intros j Hj. cbn. destruct (A j Hj) as (A1 & _). apply A1. lia.
Qed.
End Shape.

Lemma mk_64 {V : Type} (degs : list nat) (pts : list V) : degs <> [] -> fits64 (n_coeffs degs) ->
  Spline_deg_points_64 degs pts = Spline_deg_points degs pts.
Proof.
  intros Hd HF. unfold Spline_deg_points_64, Spline_deg_points. rewrite count_points_64_ok, count_points_ok. cbn [bind].
  rewrite UpdateIndexOffsets_64_ok, UpdateIndexOffsets_ok, offsets_64_id, w64_id by auto. reflexivity.
Qed.
Lemma update_64 {T V : Type} {o : SOps T} {ov : VOps T V} limit (s : spline V) (degs : list nat) : degs <> [] -> fits64 (n_coeffs degs) -> n_coeffs degs <= limit ->
  UpdateDegrees_64 limit s degs = UpdateDegrees s degs.
Proof.
  intros Hd HF HL. unfold UpdateDegrees_64, UpdateDegrees. rewrite count_points_64_ok, count_points_ok. cbn [bind].
  rewrite UpdateIndexOffsets_64_ok, UpdateIndexOffsets_ok, offsets_64_id, w64_id by auto. destruct (Nat.ltb_spec limit (n_coeffs degs)); [lia|reflexivity].
Qed.
Lemma R_mk_inv {T V : Type} (u : spline V) (w : spline T) r : R_mk u w = Ok r -> r = mkR u w /\ degrees w = degrees u.
Proof.
  unfold R_mk. destruct (compatible (mkR u w)) eqn:C; cbn [assert_ bind]; [|discriminate]. intros E. injection E as <-. split; [reflexivity|].
  unfold compatible in C. cbn [weighted_spline weight_function] in C. symmetry. apply list_eqb_eq. exact C.
Qed.
Definition fit (lv lw : nat) (D : list nat) : Prop := fits64 (n_coeffs D) /\ n_coeffs D <= lv /\ n_coeffs D <= lw.
Lemma fit_le lv lw D E : Forall2 le D E -> fit lv lw E -> fit lv lw D.
Proof. intros H (A & B & C). pose proof (n_coeffs_mono _ _ H). repeat split; try lia. eapply fits64_le; eauto. Qed.
Lemma F2_refl l : Forall2 le l l.
Proof. induction l; constructor; auto. Qed.
Lemma F2_add_l l : forall m, length m = length l -> Forall2 le l (map2 Nat.add l m).
Proof. induction l as [|a l IH]; intros [|b m] H; try discriminate; constructor; [lia|apply IH; auto]. Qed.
Lemma F2_add_r l : forall m, length m = length l -> Forall2 le m (map2 Nat.add l m).
Proof. induction l as [|a l IH]; intros [|b m] H; try discriminate; constructor; [lia|apply IH; auto]. Qed.
Lemma map2_max_add l m : length m = length l -> map2 Nat.max (map2 Nat.add l m) (map2 Nat.add l m) = map2 Nat.add l m.
Proof. intros _. induction (map2 Nat.add l m); cbn; auto. f_equal; [lia|auto]. Qed.
Lemma F2_max_add l : forall m, length m = length l -> Forall2 le (map2 Nat.max l m) (map2 Nat.add l m).
Proof. induction l as [|a l IH]; intros [|b m] H; try discriminate; constructor; [lia|apply IH; auto]. Qed.

Section Rat.
Context (lv lw MAXB : nat) (HB : table_ok MAXB) {T V : Type} {o : SOps T} {ov : VOps T V}.

Lemma R_ControlPoint_64_same (r : rspline T V) idx v : rwf r -> fits64 (n_coeffs (rdegrees r)) -> R_ControlPoint r idx = Ok v -> R_ControlPoint_64 r idx = Ok v.
Proof.
  intros (Wu & Ww & D) HF E. unfold R_ControlPoint, R_ControlPoint_64 in *. apply bind_ok in E. destruct E as (p & E1 & E). apply bind_ok in E. destruct E as (w & E2 & E).
  unfold rdegrees in HF. rewrite (ControlPoint_64_same _ _ _ ltac:(destruct Wu as (_ & _ & _ & ->); exact HF) E1). cbn [bind].
  rewrite (ControlPoint_64_same _ _ _ ltac:(destruct Ww as (_ & _ & _ & ->); rewrite D; exact HF) E2). cbn [bind]. exact E.
Qed.
Lemma R_Evaluate_64_same (r : rspline T V) xs v : rwf r -> fits64 (n_coeffs (rdegrees r)) -> R_Evaluate r xs = Ok v -> R_Evaluate_64 r xs = Ok v.
Proof.
  intros (Wu & Ww & D) HF E. unfold R_Evaluate, R_Evaluate_64 in *. apply bind_ok in E. destruct E as (p & E1 & E). apply bind_ok in E. destruct E as (w & E2 & E).
  rewrite (Evaluate_64_same _ _ _ Wu HF E1). cbn [bind]. rewrite (Evaluate_64_same _ _ _ Ww ltac:(rewrite D; exact HF) E2). exact E.
Qed.
Lemma R_OrderElevate_64_same (r r' : rspline T V) k : rwf r -> R_OrderElevate r k = Ok r' -> fit lv lw (rdegrees r') -> R_OrderElevate_64 lv lw r k = Ok r'.
Proof.
  intros (Wu & Ww & D) E (HF & H1 & H2). unfold R_OrderElevate, R_OrderElevate_64 in *. apply bind_ok in E. destruct E as (u & E1 & E). apply bind_ok in E. destruct E as (w & E2 & E).
  destruct (R_mk_inv _ _ _ E) as (-> & Dw). unfold rdegrees in *. cbn [weighted_spline] in *.
  rewrite (OrderElevate_64_same lv _ _ _ Wu E1 HF H1). cbn [bind].
  rewrite (OrderElevate_64_same lw _ _ _ Ww E2) by (rewrite Dw; assumption). exact E.
Qed.
Lemma R_SplitAtPosition_64_same (r : rspline T V) x k l : rwf r -> fits64 (n_coeffs (rdegrees r)) -> R_SplitAtPosition r x k = Ok l ->
  R_SplitAtPosition_64 r x k = Ok l /\ forall t i, get l i = Ok t -> rwf t /\ rdegrees t = rdegrees r.
Proof.
  intros (Wu & Ww & D) HF E. unfold R_SplitAtPosition, R_SplitAtPosition_64 in *. apply bind_ok in E. destruct E as (us & E1 & E). apply bind_ok in E. destruct E as (ws & E2 & E).
  rewrite (SplitAtPosition_64_same _ _ _ _ Wu HF E1). cbn [bind]. rewrite (SplitAtPosition_64_same _ _ _ _ Ww ltac:(rewrite D; exact HF) E2). cbn [bind]. split; [exact E|].
  apply SplitAtPosition_shape in E1, E2. destruct E1 as (c1 & c2 & -> & L1 & L2), E2 as (d1 & d2 & -> & L3 & L4). cbn [get nth_error bind] in E.
  apply bind_ok in E. destruct E as (a & E1 & E). apply bind_ok in E. destruct E as (b & E2 & E). injection E as <-.
  destruct (R_mk_inv _ _ _ E1) as (-> & _), (R_mk_inv _ _ _ E2) as (-> & _).
  destruct Wu as (W1 & W2 & W3 & W4), Ww as (X1 & X2 & X3 & X4).
  intros t [|[|i]] G; try discriminate; [| |destruct i; discriminate]; injection G as <-; (split; [|reflexivity]); unfold rwf, wf; cbn; rewrite ?L1, ?L2, ?L3, ?L4; auto 10.
Qed.
Lemma R_SplitAtPositions_64_same (r : rspline T V) xs k l : rwf r -> fits64 (n_coeffs (rdegrees r)) -> R_SplitAtPositions r xs k = Ok l -> R_SplitAtPositions_64 r xs k = Ok l.
Proof.
  intros Hw HF E. unfold R_SplitAtPositions, R_SplitAtPositions_64 in *. destruct (negb _); [discriminate|]. destruct (_ =? 0); [exact E|].
  apply bind_ok in E. destruct E as (x0 & E1 & E). rewrite E1. cbn [bind].
  apply bind_ok in E. destruct E as (sp & E2 & E). destruct (R_SplitAtPosition_64_same _ _ _ _ Hw HF E2) as (G2 & S2). rewrite G2. cbn [bind].
  apply bind_ok in E. destruct E as (x & E3 & E). rewrite E3. cbn [bind].
  apply bind_ok in E. destruct E as ((out & sp') & E4 & E).
  set (I := fun st : list (rspline T V) * list (rspline T V) => forall t, get (snd st) 1 = Ok t -> rwf t /\ rdegrees t = rdegrees r).
  edestruct (for_up_refine I) as (G & _); [| |exact E4|rewrite G; cbn [bind]; exact E].
  - intros t Gt. apply (S2 t 1 Gt).
  - clear out sp' E E4. intros i (out & sp1) (out' & sp1') _ HI E. unfold I in HI. cbn [snd] in HI.
    apply bind_ok in E. destruct E as (y & A1 & E). rewrite A1. cbn [bind].
    apply bind_ok in E. destruct E as (y' & A2 & E). rewrite A2. cbn [bind].
    apply bind_ok in E. destruct E as (rel & A3 & E). rewrite A3. cbn [bind].
    apply bind_ok in E. destruct E as (rest & A4 & E). rewrite A4. cbn [bind]. destruct (HI rest A4) as (Wr & Dr).
    apply bind_ok in E. destruct E as (sp2 & A5 & E). destruct (R_SplitAtPosition_64_same _ _ _ _ Wr ltac:(rewrite Dr; exact HF) A5) as (G5 & S5). rewrite G5. cbn [bind].
    apply bind_ok in E. destruct E as (z & A6 & E). rewrite A6. cbn [bind]. injection E as <- <-. split; [reflexivity|].
    intros t Gt. cbn [snd] in Gt. rewrite <- Dr. apply (S5 t 1 Gt).
Qed.

(** The three products of the sums and derivatives. *)
Section Prod.
Context (r rhs : rspline T V) (Wr : rwf r) (Wh : rwf rhs) (L : length (rdegrees rhs) = length (rdegrees r)).
Let D := map2 Nat.add (rdegrees r) (rdegrees rhs).
Context (HF : fit lv lw D).
Lemma prod_vs a : spline_mul_vs MAXB (weighted_spline r) (weight_function rhs) = Ok a ->
  spline_mul_vs_64 lv MAXB (weighted_spline r) (weight_function rhs) = Ok a /\ wf a /\ degrees a = D.
Proof using HB HF L Wh Wr.
  intros E. destruct Wr as (Wu & Ww & Dw), Wh as (Xu & Xw & Dx), HF as (F1 & F2 & F3). unfold D, rdegrees in *. rewrite <- Dx in *. apply spline_mul_64_full; auto.
Qed.
Lemma prod_sv a : spline_mul_sv MAXB (weight_function r) (weighted_spline rhs) = Ok a ->
  spline_mul_sv_64 lv MAXB (weight_function r) (weighted_spline rhs) = Ok a /\ wf a /\ degrees a = D.
Proof using HB HF L Wh Wr.
  intros E. destruct Wr as (Wu & Ww & Dw), Wh as (Xu & Xw & Dx), HF as (F1 & F2 & F3). unfold D, rdegrees in *. rewrite <- Dw in *. apply spline_mul_64_full; auto.
Qed.
Lemma prod_ss a : spline_mul_ss MAXB (weight_function r) (weight_function rhs) = Ok a ->
  spline_mul_ss_64 lw MAXB (weight_function r) (weight_function rhs) = Ok a /\ wf a /\ degrees a = D.
Proof using HB HF L Wh Wr.
  intros E. destruct Wr as (Wu & Ww & Dw), Wh as (Xu & Xw & Dx), HF as (F1 & F2 & F3). unfold D, rdegrees in *. rewrite <- Dw, <- Dx in *. apply spline_mul_64_full; auto.
Qed.
Context (fuel : nat).
Lemma sums_64 r' :
  (R_add MAXB fuel r rhs = Ok r' -> R_add_64 lv lw MAXB fuel r rhs = Ok r') /\
  (R_add_assign MAXB fuel r rhs = Ok r' -> R_add_assign_64 lv lw MAXB fuel r rhs = Ok r') /\
  (R_sub MAXB fuel r rhs = Ok r' -> R_sub_64 lv lw MAXB fuel r rhs = Ok r') /\
  (R_sub_assign MAXB fuel r rhs = Ok r' -> R_sub_assign_64 lv lw MAXB fuel r rhs = Ok r').
Proof using HB HF L Wh Wr.
  destruct HF as (F1 & F2 & F3).
  assert (S1 : forall u, (spline_add fuel (weighted_spline r) (weighted_spline rhs) = Ok u -> spline_add_64 lv fuel (weighted_spline r) (weighted_spline rhs) = Ok u) /\
    (spline_add_assign fuel (weighted_spline r) (weighted_spline rhs) = Ok u -> spline_add_assign_64 lv fuel (weighted_spline r) (weighted_spline rhs) = Ok u) /\
    (spline_sub fuel (weighted_spline r) (weighted_spline rhs) = Ok u -> spline_sub_64 lv fuel (weighted_spline r) (weighted_spline rhs) = Ok u) /\
    (spline_sub_assign fuel (weighted_spline r) (weighted_spline rhs) = Ok u -> spline_sub_assign_64 lv fuel (weighted_spline r) (weighted_spline rhs) = Ok u)).
  { intros u. destruct (fit_le lv lw _ _ (F2_max_add _ _ L) HF) as (G1 & G2 & _). apply c108_sums; auto; try apply Wr; try apply Wh. }
  assert (S2 : forall (a b u : spline V), wf a -> wf b -> degrees a = D -> degrees b = D ->
    (spline_add fuel a b = Ok u -> spline_add_64 lv fuel a b = Ok u) /\
    (spline_add_assign fuel a b = Ok u -> spline_add_assign_64 lv fuel a b = Ok u) /\
    (spline_sub fuel a b = Ok u -> spline_sub_64 lv fuel a b = Ok u) /\
    (spline_sub_assign fuel a b = Ok u -> spline_sub_assign_64 lv fuel a b = Ok u)).
  { intros a b u Wa Wb Da Db. apply c108_sums; auto; rewrite Da, Db; auto; unfold D; rewrite map2_max_add; auto. }
  unfold R_add, R_add_64, R_add_assign, R_add_assign_64, R_sub, R_sub_64, R_sub_assign, R_sub_assign_64.
  destruct (spline_eqb (weight_function r) (weight_function rhs)).
  - repeat split; intros E; apply bind_ok in E; destruct E as (u & E1 & E); destruct (S1 u) as (A1 & A2 & A3 & A4);
      [rewrite (A1 E1)|rewrite (A2 E1)|rewrite (A3 E1)|rewrite (A4 E1)]; exact E.
  - repeat split; intros E; apply bind_ok in E; destruct E as (a & E1 & E); destruct (prod_vs _ E1) as (G1 & Wa & Da); rewrite G1; cbn [bind];
      apply bind_ok in E; destruct E as (b & E2 & E); destruct (prod_sv _ E2) as (G2 & Wb & Db); rewrite G2; cbn [bind];
      apply bind_ok in E; destruct E as (u & E3 & E); destruct (S2 a b u Wa Wb Da Db) as (A1 & A2 & A3 & A4);
      [rewrite (A1 E3)|rewrite (A2 E3)|rewrite (A3 E3)|rewrite (A4 E3)]; cbn [bind];
      apply bind_ok in E; destruct E as (w & E4 & E); destruct (prod_ss _ E4) as (G4 & _); rewrite G4; exact E.
Qed.
End Prod.

(** One derivative doubles the degrees. *)
Lemma map2_double l : map2 Nat.add l l = map (Nat.mul 2) l.
Proof. induction l as [|a l IH]; cbn [map2 map]; auto. f_equal; [lia|auto]. Qed.
Lemma derivative_step_64 (fuel k : nat) (r r' : rspline T V) : rwf r -> fit lv lw (map (Nat.mul 2) (rdegrees r)) ->
  R_derivative_step MAXB fuel k r = Ok r' ->
  R_derivative_step_64 lv lw MAXB fuel k r = Ok r' /\ rwf r' /\ rdegrees r' = map (Nat.mul 2) (rdegrees r).
Proof.
  intros Wr HF E. pose proof Wr as (Wu & Ww & D). rewrite <- map2_double in *. set (DD := map2 Nat.add (rdegrees r) (rdegrees r)) in *.
  unfold R_derivative_step, R_derivative_step_64 in *. fold (rdegrees r) in *.
  assert (LD : length DD = length (rdegrees r)) by (apply length_map2_add; auto).
  pose proof HF as (F1 & F2 & F3).
  apply bind_ok in E. destruct E as (ord & E0 & E). rewrite E0. cbn [bind]. apply set_inv in E0. rewrite repeat_length in E0. destruct E0 as (Hk & Ho).
  assert (No : forall j, nth j ord 0 = if j =? k then 1 else 0).
  { intros j. rewrite Ho. destruct (Nat.eqb_spec j k) as [->|Hn].
    - rewrite nth_upd by (rewrite repeat_length; auto). now rewrite Nat.eqb_refl.
    - rewrite nth_upd by (rewrite repeat_length; auto). destruct (Nat.eqb_spec j k); [contradiction|]. apply nth_repeat. }
  destruct (fit_le lv lw _ _ (F2_add_l (rdegrees r) (rdegrees r) eq_refl) HF) as (P1 & P2 & P3).
  apply bind_ok in E. destruct E as (du & E1 & E). rewrite (DerivativeWRT_64_same lv MAXB _ _ _ HB Wu P1 P2 E1). cbn [bind].
  destruct (derivative_shape _ _ _ _ Wu E1) as (Wdu & Ldu & Ndu). fold (rdegrees r) in Ldu, Ndu.
  assert (Odd : forall l, length l = length (rdegrees r) -> (forall j, j < length (rdegrees r) -> nth j l 0 = nth j (rdegrees r) 0 - nth j ord 0) -> Forall2 le l (rdegrees r)).
  { clear. intros l. revert ord l. induction (rdegrees r) as [|a m IH]; intros ord l L N; destruct l as [|b l]; try discriminate; constructor.
    - pose proof (N 0 ltac:(cbn; lia)) as Q. cbn in Q. lia.
    - apply (IH (tl ord)); [cbn in L; lia|]. intros j Hj. pose proof (N (S j) ltac:(cbn; lia)) as Q. cbn in Q. rewrite Q. f_equal. destruct ord; [destruct j; reflexivity|reflexivity]. }
  assert (Fa : Forall2 le (map2 Nat.add (degrees du) (degrees (weight_function r))) DD).
  { rewrite D. fold (rdegrees r). unfold DD. pose proof (Odd _ Ldu (fun j Hj => proj2 (Ndu j Hj))) as Q. clear - Q. generalize (rdegrees r) at 1 3. induction Q; intros [|z l0]; cbn; constructor; auto; lia. }
  destruct (fit_le lv lw _ _ Fa HF) as (A1 & A2 & _).
  apply bind_ok in E. destruct E as (a & E2 & E).
  destruct (spline_mul_64_full lv MAXB (fun p c => vscale c p) du (weight_function r) a HB Wdu Ww ltac:(rewrite D; fold (rdegrees r); lia) A1 A2 E2) as (G2 & Wa & Da).
  unfold spline_mul_vs_64 at 1. rewrite G2. cbn [bind].
  apply bind_ok in E. destruct E as (dw & E3 & E). rewrite (DerivativeWRT_64_same lw MAXB _ _ _ HB Ww ltac:(rewrite D; exact P1) ltac:(rewrite D; exact P3) E3). cbn [bind].
  destruct (derivative_shape _ _ _ _ Ww E3) as (Wdw & Ldw & Ndw). rewrite D in Ldw, Ndw. fold (rdegrees r) in Ldw, Ndw.
  assert (Edw : degrees dw = degrees du).
  { apply (list_ext 0); [lia|]. intros j Hj. rewrite (proj2 (Ndw j ltac:(lia))), (proj2 (Ndu j ltac:(lia))). reflexivity. }
  apply bind_ok in E. destruct E as (b & E4 & E).
  assert (Dw' : degrees (weighted_spline r) = degrees (weight_function r)) by auto.
  destruct (spline_mul_64_full lv MAXB (fun c p => vscale c p) dw (weighted_spline r) b HB Wdw Wu ltac:(fold (rdegrees r); lia) ltac:(rewrite Edw, Dw'; exact A1) ltac:(rewrite Edw, Dw'; exact A2) E4) as (G4 & Wb & Db).
  unfold spline_mul_sv_64. rewrite G4. cbn [bind]. rewrite Edw, Dw' in Db.
  apply bind_ok in E. destruct E as (u & E5 & E). pose proof (sub_shape _ _ _ _ Wa E5) as Sh.
  assert (G5 : spline_sub_64 lv fuel a b = Ok u).
  { refine (spline_sub_64_same lv (degrees a) _ _ fuel a b u _ _ E5); [rewrite Da; exact A1|rewrite Da; exact A2|split; [auto|apply F2_refl]|split; [auto|rewrite Db, <- Da; apply F2_refl]]. }
  rewrite G5. cbn [bind].
  apply bind_ok in E. destruct E as (u1 & E6 & E). pose proof (same_shape_wf _ _ Sh Wa) as Wu0.
  destruct (OrderElevate_shape u u1 k Wu0 E6) as (Wu1 & Lk & Du1).
  apply bind_ok in E. destruct E as (w & E7 & E).
  destruct (prod_ss r r Wr Wr eq_refl HF w E7) as (G7 & Ww' & Dw7).
  destruct (R_mk_inv _ _ _ E) as (-> & Dc). fold DD in Dw7.
  assert (D1 : degrees u1 = DD) by congruence.
  rewrite (OrderElevate_64_same lv _ _ _ Wu0 E6) by (rewrite D1; auto). cbn [bind]. rewrite G7. cbn [bind]. split; [exact E|].
  split; [split; [auto|split; auto]|exact D1].
Qed.
Lemma map_mul_mul a b l : map (Nat.mul a) (map (Nat.mul b) l) = map (Nat.mul (a * b)) l.
Proof. rewrite map_map. apply map_ext. intros. lia. Qed.
Lemma list_sum_firstn_le i l : list_sum (firstn i l) <= list_sum l.
Proof. rewrite <- (firstn_skipn i l) at 2. rewrite list_sum_app. lia. Qed.
Lemma R_DerivativeWRT_64_same (fuel : nat) (r r' : rspline T V) ks : rwf r -> fit lv lw (map (Nat.mul (2 ^ list_sum ks)) (rdegrees r)) ->
  R_DerivativeWRT MAXB fuel r ks = Ok r' -> R_DerivativeWRT_64 lv lw MAXB fuel r ks = Ok r'.
Proof.
  intros Wr HF E. unfold R_DerivativeWRT, R_DerivativeWRT_64 in *.
  set (I := fun (n : nat) (x : rspline T V) => rwf x /\ rdegrees x = map (Nat.mul (2 ^ n)) (rdegrees r)).
  assert (Fit : forall n, n <= list_sum ks -> fit lv lw (map (Nat.mul (2 ^ n)) (rdegrees r))).
  { intros n Hn. eapply fit_le; [|exact HF]. apply map_mul_le. apply Nat.pow_le_mono_r; lia. }
  edestruct (for_up_pci2 (fun i => I (list_sum (firstn i ks)))) as (G & _); [| |exact E|exact G].
  - split; [auto|]. cbn [firstn list_sum fold_right Nat.pow]. now rewrite ProofSize3.map_mul_1.
  - intros i x y Hi Ix F. apply bind_ok in F. destruct F as (k & F1 & F). rewrite F1. cbn [bind]. apply (get_inv 0) in F1. destruct F1 as (Li & Ek).
    assert (Sf : list_sum (firstn (S i) ks) = list_sum (firstn i ks) + k).
    { rewrite (firstn_S_nth 0) by lia. rewrite list_sum_app. cbn. lia. }
    rewrite Sf. pose proof (list_sum_firstn_le (S i) ks) as Le. rewrite Sf in Le.
    edestruct (for_up_pci2 (fun j => I (list_sum (firstn i ks) + j))) as (G & IG); [| |exact F|split; [exact G|exact IG]].
    + rewrite Nat.add_0_r. exact Ix.
    + intros j z z' Hj (Wz & Dz) Fz.
      destruct (derivative_step_64 fuel i z z' Wz) as (Gz & Wz' & Dz'); [| exact Fz|].
      * rewrite Dz, map_mul_mul. change (2 * 2 ^ (list_sum (firstn i ks) + j)) with (2 ^ S (list_sum (firstn i ks) + j)). apply Fit. lia.
      * split; [exact Gz|]. split; [auto|]. rewrite Dz', Dz, map_mul_mul. rewrite Nat.add_succ_r. reflexivity.
Qed.
End Rat.

Lemma R_mul_64_same (lv lw MAXB : nat) {T V1 V2 V3 : Type} {o : SOps T} {o3 : VOps T V3} (pmul : V1 -> V2 -> V3) (r : rspline T V1) (rhs : rspline T V2) r' :
  MAXB <= 68 -> rwf r -> rwf rhs -> length (rdegrees rhs) = length (rdegrees r) -> fit lv lw (map2 Nat.add (rdegrees r) (rdegrees rhs)) ->
  R_mul MAXB pmul r rhs = Ok r' -> R_mul_64 lv lw MAXB pmul r rhs = Ok r'.
Proof.
  intros HB (Wu & Ww & D) (Xu & Xw & D') L (F1 & F2 & F3) E. unfold R_mul, R_mul_64, rdegrees in *.
  apply bind_ok in E. destruct E as (u & E1 & E). rewrite (spline_mul_64_same lv MAXB pmul _ _ u) by auto. cbn [bind].
  apply bind_ok in E. destruct E as (w & E2 & E). unfold spline_mul_ss_64. rewrite (spline_mul_64_same lw MAXB smul _ _ w) by (rewrite ?D, ?D'; auto). exact E.
Qed.

Section Comp.
Context (limit MAXB fuel : nat) (HB : table_ok MAXB) {T : Type} {o : SOps T} {d : nat}.
Lemma R_Corner_64_same pick (r : rspline T (point T d)) p : rwf r -> fits64 (n_coeffs (rdegrees r)) -> R_Corner pick r = Ok p -> R_Corner_64 pick r = Ok p.
Proof.
  intros Wr HF E. unfold R_Corner, R_Corner_64 in *. destruct (_ =? 0); [discriminate|]. pose proof Wr as (Wu & Ww & D).
  rewrite LocalToGlobal_64_same by (auto; rewrite D; auto). apply bind_ok in E. destruct E as (i0 & E1 & E). rewrite E1. cbn [bind].
  apply bind_ok in E. destruct E as (m & E2 & E). rewrite (R_ControlPoint_64_same _ _ _ Wr HF E2). cbn [bind]. exact E.
Qed.
Lemma R_Fits_64_same (r : rspline T (point T d)) b : rwf r -> fits64 (n_coeffs (rdegrees r)) -> R_FitsIntoUnitCube r = Ok b -> R_FitsIntoUnitCube_64 r = Ok b.
Proof.
  intros Wr HF E. unfold R_FitsIntoUnitCube, R_FitsIntoUnitCube_64 in *. apply bind_ok in E. destruct E as (m & E1 & E). rewrite (R_Corner_64_same _ _ _ Wr HF E1). cbn [bind].
  apply bind_ok in E. destruct E as (m' & E2 & E). rewrite (R_Corner_64_same _ _ _ Wr HF E2). exact E.
Qed.
Section Inner.
Context (inner : rspline T (point T d)) (Wi : rwf inner) (Fi : fits64 (n_coeffs (rdegrees inner))) (Li : n_coeffs (rdegrees inner) <= limit).
Lemma extract_64 k c : R_ExtractDimension inner k = Ok c -> R_ExtractDimension_64 limit inner k = Ok c /\ pw (rdegrees inner) 1 c.
Proof using Fi Li Wi.
  intros E. destruct (Extract_64_same limit (weighted_spline inner) k c (proj1 Wi) Fi Li E) as (G & Wc & Dc). split; auto. split; auto. rewrite ProofSize3.map_mul_1. exact Dc.
Qed.
Lemma inverse_64 (c ic : spline T) : pw (rdegrees inner) 1 c -> inverse_rational fuel (weight_function inner) c = Ok ic ->
  inverse_rational_64 limit fuel (weight_function inner) c = Ok ic /\ pw (rdegrees inner) 1 ic.
Proof using Fi Li Wi.
  intros (Wc & Dc) E. unfold inverse_rational, inverse_rational_64 in *. rewrite ProofSize3.map_mul_1 in Dc. destruct Wi as (Wu & Ww & D). fold (rdegrees inner) in D. split.
  - refine (spline_sub_64_same limit (rdegrees inner) Fi Li fuel _ _ _ _ _ E); (split; [auto|]); [rewrite D|rewrite Dc]; apply F2_refl.
  - pose proof (sub_shape _ _ _ _ Ww E) as Sh. split; [apply (same_shape_wf _ _ Sh Ww)|]. rewrite ProofSize3.map_mul_1, (proj1 Sh). exact D.
Qed.
Lemma numerator_64 {V} {ov : VOps T V} (outer : spline V) : wf outer -> fits64 (n_coeffs (degrees outer)) ->
  fits64 (n_coeffs (map (Nat.mul (sum_degrees outer)) (rdegrees inner))) -> n_coeffs (map (Nat.mul (sum_degrees outer)) (rdegrees inner)) <= limit ->
  (forall u, ComposeNumerator_R MAXB fuel outer inner = Ok u -> ComposeNumerator_R_64 limit MAXB fuel outer inner = Ok u) /\
  (forall l, ComposeNumeratorSensitivity_R MAXB fuel outer inner = Ok l -> ComposeNumeratorSensitivity_R_64 limit MAXB fuel outer inner = Ok l) /\
  (forall w, ComposeDenominator MAXB outer inner = Ok w -> ComposeDenominator_64 limit MAXB outer inner = Ok w).
Proof using Fi HB Li Wi.
  intros Wo Fo HF HL. split; [|split].
  - intros u E. refine (Numerator_64_same limit MAXB HB outer (rdegrees inner) Wo Fo (proj1 (proj1 Wi)) HF HL _ _ _ _ extract_64 inverse_64 u E).
  - intros u E. refine (Sensitivity_64_same limit MAXB HB outer (rdegrees inner) Wo Fo (proj1 (proj1 Wi)) HF HL _ _ _ _ extract_64 inverse_64 u E).
  - intros w E. unfold ComposeDenominator, ComposeDenominator_64 in *. rewrite sum_degrees_64_same by auto. destruct Wi as (Wu & Ww & D). fold (rdegrees inner) in D.
    apply c108_power; auto; rewrite D; auto.
Qed.
End Inner.
End Comp.
