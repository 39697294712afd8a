(** Sizes in 64 bits: the operations of a spline. *)
From Coq Require Import Arith Lia List ZArith NArith Bool Reals.
From Verif Require Import Prelude Scalar Spec SpecSpline SpecReal Coord ModelBasis ModelPoint ModelSpline ModelSize ModelSize2 ProofBasis ProofIndex ProofEval ProofMul ProofSize ProofSize2 ProofSize3 ClaimsA ClaimsB ClaimsD ClaimsE ClaimsF.
Import ListNotations.
Local Open Scope nat_scope.

Lemma F2_upd_ge l : forall k q, nth k l 0 <= q -> Forall2 le l (upd_list l k q).
Proof.
  induction l as [|a l IH]; intros [|k] q H; cbn [upd_list nth] in *; constructor; auto.
  clear. induction l; constructor; auto.
Qed.
Lemma F2_max_l l : forall m, length l = length m -> Forall2 le l (map2 Nat.max l m).
Proof. induction l as [|a l IH]; intros [|b m] H; try discriminate; cbn [map2]; constructor; [lia|]. apply IH. injection H; auto. Qed.
Lemma F2_max_r l : forall m, length l = length m -> Forall2 le m (map2 Nat.max l m).
Proof. induction l as [|a l IH]; intros [|b m] H; try discriminate; cbn [map2]; constructor; [lia|]. apply IH. injection H; auto. Qed.

Lemma c108_evaluate : forall (T V : Type) (o : SOps T) (ov : VOps T V) (s : spline V) (xs : list T),
  wf s -> (Z.of_nat (n_coeffs (degrees s)) < 2 ^ 64)%Z ->
  (forall v, Evaluate s xs = Ok v -> Evaluate_64 s xs = Ok v) /\
  (SField T -> VMod T V -> length xs = length (degrees s) ->
   Evaluate_64 s xs = Ok (bezier (degrees s) xs (fun i => nth i (control_points s) v0))).
Proof.
  intros T V o ov s xs Hw HF. split; [intros v E; apply Evaluate_64_same; auto|]. intros F M HL. apply Evaluate_64_same; auto. apply c09_evaluate; auto.
Qed.

Lemma c108_split : forall (T V : Type) (o : SOps T) (ov : VOps T V) (s : spline V) (x : T) (k : nat),
  wf s -> (Z.of_nat (n_coeffs (degrees s)) < 2 ^ 64)%Z ->
  (forall parts, SplitAtPosition s x k = Ok parts -> SplitAtPosition_64 s x k = Ok parts) /\
  (SField T -> VMod T V -> SOrder T -> k < length (degrees s) -> slt s0 x -> slt x s1 ->
   exists a b, SplitAtPosition_64 s x k = Ok [a; b] /\ wf a /\ wf b /\
     degrees a = degrees s /\ degrees b = degrees s /\
     forall xs : list T, length xs = length (degrees s) ->
       Evaluate_64 a xs = Evaluate_64 s (upd_list xs k (smul x (nth k xs s0))) /\
       Evaluate_64 b xs = Evaluate_64 s (upd_list xs k (sadd x (smul (ssub s1 x) (nth k xs s0))))).
Proof.
  intros T V o ov s x k Hw HF. split; [intros v E; apply SplitAtPosition_64_same; auto|]. intros F M O Hk H0 H1.
  destruct (c32_split T V o ov F M O s x k Hw Hk H0 H1) as (a & b & E & Wa & Wb & Da & Db & Ev). exists a, b.
  split; [apply SplitAtPosition_64_same; auto|]. do 4 (split; [assumption|]). intros xs HL. destruct (Ev xs HL) as (E1 & E2).
  split; [transitivity (Evaluate a xs)|transitivity (Evaluate b xs)].
  - rewrite (c09_evaluate T V o ov F M a xs Wa) by congruence. apply Evaluate_64_same; [auto|rewrite Da; auto|]. apply c09_evaluate; auto. congruence.
  - rewrite E1. rewrite (c09_evaluate T V o ov F M s _ Hw) by (rewrite length_upd; auto). symmetry. apply Evaluate_64_same; auto. apply c09_evaluate; auto. rewrite length_upd; auto.
  - rewrite (c09_evaluate T V o ov F M b xs Wb) by congruence. apply Evaluate_64_same; [auto|rewrite Db; auto|]. apply c09_evaluate; auto. congruence.
  - rewrite E2. rewrite (c09_evaluate T V o ov F M s _ Hw) by (rewrite length_upd; auto). symmetry. apply Evaluate_64_same; auto. apply c09_evaluate; auto. rewrite length_upd; auto.
Qed.

Lemma c108_splits : forall (T V : Type) (o : SOps T) (ov : VOps T V) (s : spline V) (planes : list T) (k : nat) parts,
  wf s -> (Z.of_nat (n_coeffs (degrees s)) < 2 ^ 64)%Z ->
  SplitAtPositions s planes k = Ok parts -> SplitAtPositions_64 s planes k = Ok parts.
Proof. intros T V o ov s planes k parts Hw HF E. apply SplitAtPositions_64_same; auto. Qed.

Lemma c108_elevate : forall (T V : Type) (o : SOps T) (ov : VOps T V) (limit : nat) (s : spline V) (k : nat), wf s ->
  (forall r, OrderElevate s k = Ok r -> (Z.of_nat (n_coeffs (degrees r)) < 2 ^ 64)%Z -> n_coeffs (degrees r) <= limit ->
     OrderElevate_64 limit s k = Ok r) /\
  (SField T -> VMod T V -> k < length (degrees s) ->
   (Z.of_nat (n_coeffs (upd_at k S (degrees s))) < 2 ^ 31)%Z -> n_coeffs (upd_at k S (degrees s)) <= limit ->
   exists r, OrderElevate_64 limit s k = Ok r /\ wf r /\ degrees r = upd_at k S (degrees s) /\
     forall xs : list T, length xs = length (degrees s) ->
       Evaluate_64 r xs = Evaluate_64 s xs /\ is_ok (Evaluate_64 s xs)).
Proof.
  intros T V o ov limit s k Hw. split; [intros r E HF HL; apply OrderElevate_64_same; auto|]. intros F M Hk H31 HL.
  destruct (c13_order_elevate T V o ov F M s k Hw Hk H31) as (r & E & Wr & Dr & Ev). exists r.
  assert (Fr : fits64 (n_coeffs (degrees r))) by (unfold fits64; rewrite Dr; lia).
  destruct (OrderElevate_shape s r k Hw E) as (_ & _ & Dr2).
  assert (Fs : fits64 (n_coeffs (degrees s))).
  { eapply fits64_le; [|exact Fr]. rewrite Dr2. apply n_coeffs_mono. apply F2_upd_ge. lia. }
  split; [apply OrderElevate_64_same; auto; rewrite Dr; auto|]. do 2 (split; [assumption|]). intros xs Hx. destruct (Ev xs Hx) as (E1 & E2).
  assert (HLr : length (degrees r) = length (degrees s)) by (rewrite Dr2; apply length_upd).
  rewrite (Evaluate_64_same s xs _ Hw Fs (c09_evaluate T V o ov F M s xs Hw Hx)). split; [|eexists; reflexivity].
  apply Evaluate_64_same; auto. rewrite E1. apply c09_evaluate; auto.
Qed.

Lemma c108_sums : forall (T V : Type) (o : SOps T) (ov : VOps T V) (limit fuel : nat) (a b r : spline V),
  wf a -> wf b -> length (degrees a) = length (degrees b) ->
  (Z.of_nat (n_coeffs (map2 Nat.max (degrees a) (degrees b))) < 2 ^ 64)%Z ->
  n_coeffs (map2 Nat.max (degrees a) (degrees b)) <= limit ->
  (spline_add fuel a b = Ok r -> spline_add_64 limit fuel a b = Ok r) /\
  (spline_add_assign fuel a b = Ok r -> spline_add_assign_64 limit fuel a b = Ok r) /\
  (spline_sub fuel a b = Ok r -> spline_sub_64 limit fuel a b = Ok r) /\
  (spline_sub_assign fuel a b = Ok r -> spline_sub_assign_64 limit fuel a b = Ok r).
Proof.
  intros T V o ov limit fuel a b r Wa Wb HL HF HLim.
  pose proof (F2_max_l _ _ HL) as La. pose proof (F2_max_r _ _ HL) as Lb. set (M := map2 Nat.max (degrees a) (degrees b)) in *.
  split; [|split; [|split]]; intros E.
  - apply (spline_add_rec_64_same limit M HF HLim); auto.
  - apply (assign_64_same limit M HF HLim); auto.
  - apply (spline_sub_64_same limit M HF HLim); auto.
  - apply (assign_64_same limit M HF HLim); auto.
Qed.

Lemma c108_sums_values : forall (T V : Type) (o : SOps T) (ov : VOps T V) (F : SField T) (M : VMod T V) (limit : nat) (a b : spline V),
  wf a -> wf b -> length (degrees a) = length (degrees b) ->
  (Z.of_nat (n_coeffs (map2 Nat.max (degrees a) (degrees b))) < 2 ^ 31)%Z ->
  n_coeffs (map2 Nat.max (degrees a) (degrees b)) <= limit ->
  exists r d, returns (fun fuel => spline_add_64 limit fuel a b) r /\ returns (fun fuel => spline_add_assign_64 limit fuel a b) r /\
    returns (fun fuel => spline_sub_assign_64 limit fuel a b) d /\ wf r /\ wf d /\
    degrees r = map2 Nat.max (degrees a) (degrees b) /\ degrees d = map2 Nat.max (degrees a) (degrees b) /\
    forall xs : list T, length xs = length (degrees a) ->
      exists x y, Evaluate_64 a xs = Ok x /\ Evaluate_64 b xs = Ok y /\
        Evaluate_64 r xs = Ok (vadd x y) /\ Evaluate_64 d xs = Ok (vsub x y).
Proof.
  intros T V o ov F M limit a b Wa Wb HL H31 HLim. assert (HF : fits64 (n_coeffs (map2 Nat.max (degrees a) (degrees b)))) by (unfold fits64; lia).
  destruct (c18_add_assign T V o ov F M a b Wa Wb HL H31) as (r & R1 & R2 & Wr & Dr & Ev).
  destruct (c18_sub_assign T V o ov F M a b Wa Wb HL H31) as (d & R3 & Wd & Dd & Ew). exists r, d.
  pose proof (fun fuel q => c108_sums T V o ov limit fuel a b q Wa Wb HL HF HLim) as S.
  assert (Fa : fits64 (n_coeffs (degrees a))) by (eapply fits64_le; [apply n_coeffs_mono, F2_max_l; exact HL|exact HF]).
  assert (Fb : fits64 (n_coeffs (degrees b))) by (eapply fits64_le; [apply n_coeffs_mono, F2_max_r; exact HL|exact HF]).
  split; [destruct R2 as (n & R2); exists n; intros f Hf; apply S; auto|].
  split; [destruct R1 as (n & R1); exists n; intros f Hf; apply S; auto|].
  split; [destruct R3 as (n & R3); exists n; intros f Hf; apply S; auto|].
  do 4 (split; [assumption|]). intros xs Hx. destruct (Ev xs Hx) as (x & y & E1 & E2 & E3). destruct (Ew xs Hx) as (x' & y' & E1' & E2' & E4).
  assert (x' = x) by congruence. assert (y' = y) by congruence. subst x' y'. exists x, y.
  repeat split; apply Evaluate_64_same; auto; [rewrite Dr|rewrite Dd]; auto.
Qed.

Lemma c108_derivative : forall (T V : Type) (o : SOps T) (ov : VOps T V) (limit MAXB : nat) (s r : spline V) (orders : list nat),
  MAXB <= 68 -> wf s -> (Z.of_nat (n_coeffs (degrees s)) < 2 ^ 64)%Z -> n_coeffs (degrees s) <= limit ->
  DerivativeWRT MAXB s orders = Ok r -> DerivativeWRT_64 limit MAXB s orders = Ok r.
Proof. intros T V o ov limit MAXB s r orders HB Hw HF HL E. apply DerivativeWRT_64_same; auto. Qed.

Lemma c108_derivative_values : forall (V : Type) (ov : VOps R V) (M : VMod R V) (limit MAXB : nat)
  (s : spline V) (orders : list nat),
  MAXB <= 68 -> wf s -> (Z.of_nat (n_coeffs (degrees s)) < 2 ^ 64)%Z -> n_coeffs (degrees s) <= limit ->
  length orders = length (degrees s) ->
  Forall2 le orders (degrees s) -> Forall (fun k => k < MAXB) orders ->
  exists r f g, DerivativeWRT_64 limit MAXB s orders = Ok r /\ wf r /\
    degrees r = map2 Nat.sub (degrees s) orders /\
    (forall xs : list R, length xs = length (degrees s) -> Evaluate_64 s xs = Ok (f xs) /\ Evaluate_64 r xs = Ok (g xs)) /\
    forall (phi : V -> R) dirs, linear_form phi -> directions_of orders dirs ->
      mixed (fun xs => length xs = length (degrees s)) dirs (fun xs => phi (f xs)) (fun xs => phi (g xs)).
Proof.
  intros V ov M limit MAXB s orders HB Hw HF HL HO H1 H2.
  destruct (c14_derivative_spline V ov M MAXB s orders HB Hw HO H1 H2) as (r & f & g & E & Wr & Dr & Ev & Mx).
  exists r, f, g. split; [apply DerivativeWRT_64_same; auto|]. do 2 (split; [assumption|]). split; [|exact Mx].
  intros xs Hx. destruct (Ev xs Hx) as (E1 & E2). split; apply Evaluate_64_same; auto.
  eapply fits64_le; [|exact HF]. rewrite Dr. apply n_coeffs_mono. clear - HO. revert orders HO. induction (degrees s) as [|p l IH]; intros [|k orders] HO; try discriminate; cbn [map2]; constructor; [lia|]. apply IH. injection HO; auto.
Qed.

Lemma c108_power : forall (T : Type) (o : SOps T) (limit MAXB : nat) (s r : spline T) (n : nat),
  MAXB <= 68 -> wf s -> (Z.of_nat (n_coeffs (map (Nat.mul n) (degrees s))) < 2 ^ 64)%Z -> n_coeffs (map (Nat.mul n) (degrees s)) <= limit ->
  RaisePower MAXB s n = Ok r -> RaisePower_64 limit MAXB s n = Ok r.
Proof.
  intros T o limit MAXB s r n HB Hw HF HL E. refine (proj1 (RaisePower_rec_64_same limit MAXB HB (degrees s) _ n HF HL (S n) n s r _ _ E)); auto.
  - apply Hw.
  - split; auto. symmetry. apply map_mul_1.
Qed.

Lemma c108_compose : forall (T V : Type) (o : SOps T) (ov : VOps T V) (limit MAXB d : nat) (outer : spline V) (inner : spline (point T d)),
  MAXB <= 68 -> wf outer -> wf inner ->
  (Z.of_nat (n_coeffs (degrees outer)) < 2 ^ 64)%Z ->
  (Z.of_nat (n_coeffs (degrees inner)) < 2 ^ 64)%Z -> n_coeffs (degrees inner) <= limit ->
  (Z.of_nat (n_coeffs (map (Nat.mul (list_sum (degrees outer))) (degrees inner))) < 2 ^ 64)%Z ->
  n_coeffs (map (Nat.mul (list_sum (degrees outer))) (degrees inner)) <= limit ->
  (forall r, Compose MAXB outer inner = Ok r -> Compose_64 limit MAXB outer inner = Ok r) /\
  (forall l, ComposeSensitivity MAXB outer inner = Ok l -> ComposeSensitivity_64 limit MAXB outer inner = Ok l).
Proof.
  intros T V o ov limit MAXB d outer inner HB Wo Wi Fo Fi Li HF HL.
  assert (ES : list_sum (degrees outer) = sum_degrees outer) by (unfold sum_degrees; rewrite fold_add_sum; reflexivity). rewrite ES in HF, HL.
  assert (Hex : forall k c, ExtractDimension inner k = Ok c -> ExtractDimension_64 limit inner k = Ok c /\ pw (degrees inner) 1 c).
  { intros k c E. destruct (Extract_64_same limit inner k c Wi Fi Li E) as (G & Wc & Dc). split; auto. split; auto. rewrite map_mul_1. exact Dc. }
  assert (Hin : forall c ic : spline T, pw (degrees inner) 1 c -> inverse_poly c = Ok ic -> inverse_poly c = Ok ic /\ pw (degrees inner) 1 ic).
  { intros c ic P E. split; [exact E|]. eapply pw_shape; [exact P|]. apply inverse_poly_shape. exact E. }
  split; intros r E; unfold Compose, ComposeSensitivity, Compose_64, ComposeSensitivity_64 in *; apply bind_ok in E; destruct E as (b & E1 & E); rewrite E1; cbn [bind]; destruct (negb b); try discriminate.
  - refine (Numerator_64_same limit MAXB HB outer (degrees inner) Wo Fo (proj1 Wi) HF HL _ _ _ _ Hex Hin r E).
  - refine (Sensitivity_64_same limit MAXB HB outer (degrees inner) Wo Fo (proj1 Wi) HF HL _ _ _ _ Hex Hin r E).
Qed.

Lemma c108_compose_values : forall (T V : Type) (o : SOps T) (ov : VOps T V) (F : SField T) (M : VMod T V) (O : SOrder T)
  (limit MAXB : nat) (outer : spline V) (inner : spline (point T (length (degrees outer)))),
  MAXB <= 68 -> wf outer -> wf inner ->
  (Z.of_nat (n_coeffs (degrees outer)) < 2 ^ 64)%Z ->
  (Z.of_nat (n_coeffs (degrees inner)) < 2 ^ 64)%Z -> n_coeffs (degrees inner) <= limit ->
  (Z.of_nat (n_coeffs (map (Nat.mul (list_sum (degrees outer))) (degrees inner))) < 2 ^ 64)%Z ->
  n_coeffs (map (Nat.mul (list_sum (degrees outer))) (degrees inner)) <= limit ->
  (forall p k, In p (control_points inner) -> k < length (degrees outer) -> in_unit (coord _ p k)) ->
  Forall (fun p => list_sum (degrees outer) * p < MAXB) (degrees inner) ->
  Forall (fun p => p < MAXB) (degrees outer) ->
  exists r, Compose_64 limit MAXB outer inner = Ok r /\ wf r /\
    degrees r = map (fun p => list_sum (degrees outer) * p) (degrees inner) /\
    forall xs : list T, length xs = length (degrees inner) ->
      exists p v, Evaluate_64 inner xs = Ok p /\ Evaluate_64 outer (plist _ p) = Ok v /\ Evaluate_64 r xs = Ok v.
Proof.
  intros T V o ov F M O limit MAXB outer inner HB Wo Wi Fo Fi Li HF HL Hu H1 H2.
  destruct (c28_compose T V o ov F M O MAXB outer inner HB Wo Wi Hu H1 H2) as (r & E & Wr & Dr & Ev). exists r.
  split; [apply c108_compose; auto|]. do 2 (split; [assumption|]). intros xs Hx. destruct (Ev xs Hx) as (p & v & E1 & E2 & E3). exists p, v.
  split; [apply Evaluate_64_same; auto|]. split; apply Evaluate_64_same; auto. unfold fits64. rewrite Dr. exact HF.
Qed.

Lemma i32_small z : (0 <= z < 2 ^ 31)%Z -> i32 z = z.
Proof. intros H. unfold i32. rewrite Z.mod_small; lia. Qed.
Lemma upd_at_S l : forall k, upd_at k S l = upd_list l k (nth k l 0 + 1).
Proof. induction l as [|a l IH]; intros [|k]; cbn; auto; [f_equal; lia|f_equal; auto]. Qed.
Lemma c108_elevate_limit : forall (T V : Type) (o : SOps T) (ov : VOps T V) (limit : nat) (s : spline V) (k : nat), wf s ->
  k < length (degrees s) -> (Z.of_nat (n_coeffs (degrees s)) < 2 ^ 31)%Z ->
  limit < n_coeffs (upd_at k S (degrees s)) -> OrderElevate_64 limit s k = Throw.
Proof.
  intros T V o ov limit s k Hw Hk HZ HL. pose proof Hw as (Hd & Hn & HO & HC).
  assert (HF0 : fits64 (n_coeffs (degrees s))) by (unfold fits64; lia).
  assert (E1 := get_ok 0 (degrees s) k Hk). rewrite upd_at_S in HL. set (p := nth k (degrees s) 0) in *.
  assert (Hko : k < length (index_offsets s)) by (rewrite HO, length_offsets; auto).
  assert (E2 := get_ok 0 (index_offsets s) k Hko). set (off := nth k (index_offsets s) 0) in *.
  pose proof (wf_degree s k p Hw HF0 E1) as Hp. destruct (wf_group s k p off Hw HF0 E1 E2) as (Hg & Ho).
  rewrite n_coeffs_upd in HL by auto. unfold OrderElevate_64. rewrite E1. cbn [bind]. rewrite E2. cbn [bind]. unfold div64.
  rewrite !(w64_id (p + 1)) by auto. destruct (Nat.eqb_spec (p + 1) 0); [lia|]. cbn [bind]. cbv zeta.
  assert (Hoff : off <= n_coeffs (degrees s)).
  { subst off. rewrite HO, nth_offsets by auto. apply n_coeffs_firstn_le. }
  rewrite i32_small by lia. destruct (Z.eqb_spec (Z.of_nat off) 0); [lia|]. cbn [bind]. rewrite Hn, w64_mul_r.
  rewrite w64_id. { destruct (Nat.ltb_spec limit (n_coeffs (degrees s) / (p + 1) * (p + 2))); [reflexivity|lia]. }
  unfold fits64. assert (n_coeffs (degrees s) / (p + 1) * (p + 1) <= n_coeffs (degrees s)) by (rewrite Nat.mul_comm; apply Nat.mul_div_le; lia).
  assert (n_coeffs (degrees s) / (p + 1) * (p + 2) <= 2 * n_coeffs (degrees s)) by nia. lia.
Qed.

Lemma c108_compose_limit : forall (T V : Type) (o : SOps T) (ov : VOps T V) (limit MAXB d : nat) (outer : spline V) (inner : spline (point T d)),
  FitsIntoUnitCube inner = Ok true -> (Z.of_nat (n_coeffs (degrees outer)) < 2 ^ 64)%Z ->
  (Z.of_nat (n_coeffs (map (fun p => (p * sum_degrees outer)%nat) (degrees inner))) < 2 ^ 64)%Z ->
  limit < n_coeffs (map (fun p => p * sum_degrees outer) (degrees inner)) -> Compose_64 limit MAXB outer inner = Throw.
Proof.
  intros T V o ov limit MAXB d outer inner HFit HO HF HL. unfold Compose_64. rewrite HFit. cbn [bind negb]. unfold ComposeNumerator_64. cbv zeta.
  rewrite sum_degrees_64_same by exact HO.
  assert (E : map (fun p => w64 (p * sum_degrees outer)) (degrees inner) = map (fun p => p * sum_degrees outer) (degrees inner)).
  { apply map_ext_in. intros p Hp. apply w64_id. apply (in_map (fun p => p * sum_degrees outer)) in Hp. apply (In_nth _ _ 0) in Hp.
    destruct Hp as (i & Hi & <-). eapply fits64_le; [|exact HF]. pose proof (n_coeffs_nth_le _ _ Hi). lia. }
  rewrite E. unfold Spline_deg_64. rewrite count_points_64_ok. cbn [bind]. rewrite w64_id by exact HF.
  destruct (Nat.ltb_spec limit (n_coeffs (map (fun p => p * sum_degrees outer) (degrees inner)))); [reflexivity|lia].
Qed.

Lemma w64_sub_top p : (Z.of_nat p < 2 ^ 64)%Z -> Z.of_nat (w64_sub p (p + 1)) = (2 ^ 64 - 1)%Z.
Proof. intros H. unfold w64_sub. replace (Z.of_nat p - Z.of_nat (p + 1))%Z with (-1)%Z by lia. rewrite Z2Nat.id by (apply Z.mod_pos_bound; lia). reflexivity. Qed.
Lemma w64_top t : Z.of_nat t = (2 ^ 64 - 1)%Z -> w64 (t + 1) = 0.
Proof. intros H. unfold w64. rewrite Nat2Z.inj_add, H. reflexivity. Qed.
Lemma for_up_app {A} (f : nat -> A -> res A) m n : forall lo a, for_up lo (m + n) f a = bind (for_up lo m f a) (for_up (lo + m) n f).
Proof.
  induction m; intros lo a; cbn [for_up Nat.add bind]; [rewrite Nat.add_0_r; reflexivity|]. rewrite bind_assoc. apply bind_ext. intros b _.
  rewrite IHm. replace (S lo + m) with (lo + S m) by lia. reflexivity.
Qed.
Lemma n_coeffs_wrap l k t : k < length l -> nth k l 0 = t -> Z.of_nat t = (2 ^ 64 - 1)%Z -> w64 (n_coeffs l) = 0.
Proof.
  intros Hk Ht Hz. rewrite (n_coeffs_split l k), (skipn_cons_nth 0) by auto. rewrite Ht, n_coeffs_cons.
  replace (S t) with (t + 1) by lia. rewrite <- w64_mul_r, <- (w64_mul_l (t + 1)), (w64_top t Hz). cbn [Nat.mul]. change (w64 0) with 0. rewrite Nat.mul_0_r. reflexivity.
Qed.

(** One order too many. *)
Lemma c108_derivative_beyond : forall (T V : Type) (o : SOps T) (ov : VOps T V) (limit MAXB : nat) (s : spline V) (k : nat), wf s ->
  (Z.of_nat (n_coeffs (degrees s)) < 2 ^ 64)%Z -> k < length (degrees s) ->
  exists r, DerivativeWRT_64 limit MAXB s (upd_list (repeat 0 (length (degrees s))) k (nth k (degrees s) 0 + 1)) = Ok r /\
    control_points r = [] /\ number_of_control_points r = 0 /\ Z.of_nat (nth k (degrees r) 0) = (2 ^ 64 - 1)%Z /\
    length (degrees r) = length (degrees s) /\ (forall j, j <> k -> nth j (degrees r) 0 = nth j (degrees s) 0) /\
    forall xs : list T, length xs = length (degrees s) -> Evaluate_64 r xs = UB.
Proof.
  intros T V o ov limit MAXB s k Hw HF Hk. set (n := length (degrees s)) in *. set (p := nth k (degrees s) 0) in *. set (ks := upd_list (repeat 0 n) k (p + 1)).
  assert (Hp : (Z.of_nat p < 2 ^ 64)%Z) by (pose proof (n_coeffs_nth_le (degrees s) k Hk); fold p in H; lia).
  pose proof (w64_sub_top p Hp) as Ht. set (t := w64_sub p (p + 1)) in *. set (nd := upd_list (degrees s) k t).
  assert (Lk : length ks = n) by (unfold ks; rewrite length_upd, repeat_length; auto).
  assert (Ln : length nd = n) by (unfold nd; rewrite length_upd; auto).
  assert (Nk : nth k nd 0 = t) by (unfold nd; rewrite nth_upd_same by auto; reflexivity).
  unfold DerivativeWRT_64. fold n. match goal with |- exists r, bind (for_up 0 n ?f ?a) _ = _ /\ _ => set (F := f) end.
  assert (E : for_up 0 n F (degrees s, control_points s) = Ok (nd, control_points s)).
  { destruct (for_up_inv (fun i st => st = (if i <=? k then degrees s else nd, control_points s)) F n 0 (degrees s, control_points s)) as (st & E & ->).
    - reflexivity.
    - intros i st Hi ->. unfold F. rewrite (get_ok 0) by lia. cbn [bind]. unfold ks. rewrite nth_upd by (rewrite repeat_length; auto).
      destruct (Nat.eq_dec i k) as [->|Hne].
      + rewrite Nat.eqb_refl. destruct (Nat.eqb_spec (p + 1) 0); [lia|]. rewrite Nat.leb_refl, (get_ok 0) by auto. cbn [bind]. rewrite set_ok by auto. cbn [bind]. fold p.
        edestruct (for_up_inv (fun _ (_ : T) => True)) as (f & Ef & _); [exact I| |rewrite Ef; cbn [bind]].
        { intros; eexists; split; [reflexivity|auto]. }
        rewrite count_points_64_ok. cbn [bind]. fold t. fold nd. rewrite (n_coeffs_wrap nd k t) by (auto; lia). cbn [for_up bind].
        eexists; split; [reflexivity|]. destruct (Nat.leb_spec (S k) k); [lia|reflexivity].
      + destruct (Nat.eqb_spec i k); [lia|]. rewrite nth_repeat. cbn [Nat.eqb]. eexists; split; [reflexivity|].
        destruct (Nat.leb_spec i k), (Nat.leb_spec (S i) k); auto; lia.
    - destruct (Nat.leb_spec (0 + n) k); [lia|]. exact E. }
  rewrite E. cbn [bind]. unfold Spline_deg_64. rewrite count_points_64_ok. cbn [bind]. rewrite (n_coeffs_wrap nd k t) by (auto; lia).
  destruct (Nat.ltb_spec limit 0); [lia|]. assert (Hnd : nd <> []) by (intros H'; rewrite H' in Ln; cbn in Ln; lia).
  rewrite UpdateIndexOffsets_64_ok by auto. cbn [bind number_of_control_points control_points for_up repeat with_cps].
  eexists; split; [reflexivity|]. cbn [with_cps control_points number_of_control_points degrees]. split; [reflexivity|]. split; [reflexivity|].
  split; [rewrite Nk; exact Ht|]. split; [exact Ln|].
  split; [intros j Hj; unfold nd; destruct (Nat.lt_ge_cases j n); [rewrite nth_upd by auto; destruct (Nat.eqb_spec j k); [contradiction|reflexivity]|rewrite !nth_overflow; auto; rewrite length_upd; auto]|]. intros xs HX. unfold Evaluate_64, with_cps. cbn [degrees index_offsets control_points number_of_control_points].
  rewrite Ln. replace n with (k + S (n - S k)) by lia. 
  match goal with |- bind (for_up 0 _ ?f ?a) _ = _ => set (G := f) end.
  assert (E2 : for_up 0 k G ([], 0) = Ok ([], 0)).
  { destruct (for_up_inv (fun _ st => st = ([], 0)) G k 0 ([], 0)) as (st & Es & ->); auto. intros i st Hi ->. unfold G.
    rewrite (get_ok s0) by lia. cbn [bind]. rewrite (get_ok 0) by lia. cbn [bind]. rewrite (get_ok 0) by (rewrite map_length, length_offsets; lia). cbn [bind].
    unfold nd. rewrite nth_upd by auto. destruct (Nat.eqb_spec i k); [lia|]. unfold div64.
    rewrite w64_id by (eapply fits64_le; [|exact HF]; apply n_coeffs_nth_le; fold n; lia).
    destruct (Nat.eqb_spec (nth i (degrees s) 0 + 1) 0); [lia|]. rewrite Nat.div_0_l by lia. cbn [bind for_up]. eexists; split; reflexivity. }
  rewrite for_up_app, E2. cbn [bind for_up Nat.add]. unfold G at 1. rewrite (get_ok s0) by lia. cbn [bind]. rewrite (get_ok 0) by lia. cbn [bind].
  rewrite (get_ok 0) by (rewrite map_length, length_offsets; lia). cbn [bind]. rewrite Nk. rewrite (w64_top t Ht). reflexivity.
Qed.

Lemma for_up_fails {A} (f : nat -> A -> res A) (I : nat -> A -> Prop) m n lo a e : I lo a ->
  (forall i b, lo <= i < lo + m -> I i b -> exists b', f i b = Ok b' /\ I (S i) b') -> m < n ->
  (forall b, I (lo + m) b -> f (lo + m) b = e) -> (forall x, e <> Ok x) -> for_up lo n f a = e.
Proof.
  intros Ha Hs Hm He Hn. replace n with (m + S (n - S m)) by lia. rewrite for_up_app.
  destruct (for_up_inv I f m lo a Ha Hs) as (b & -> & Hb). cbn [bind for_up]. rewrite He by auto.
  destruct e; try reflexivity. exfalso. eapply Hn. reflexivity.
Qed.

Lemma for_up_ub {A} (f : nat -> A -> res A) (I : nat -> A -> Prop) m : forall n lo a, I lo a ->
  (forall i b, lo <= i < lo + m -> I i b -> (exists b', f i b = Ok b' /\ I (S i) b') \/ f i b = UB) -> m < n ->
  (forall b, I (lo + m) b -> f (lo + m) b = UB) -> for_up lo n f a = UB.
Proof.
  induction m as [|m IH]; intros n lo a Ha Hs Hm He; (destruct n as [|n]; [lia|]); cbn [for_up].
  - specialize (He a). rewrite Nat.add_0_r in He. rewrite He by auto. reflexivity.
  - destruct (Hs lo a ltac:(lia) Ha) as [(b & -> & Hb)| ->]; [|reflexivity]. cbn [bind].
    apply IH; [exact Hb|intros i c Hi; apply Hs; lia|lia|]. intros c Hc. replace (S lo + m) with (lo + S m) in * by lia. apply He. exact Hc.
Qed.
Lemma choose_64_in MAXB n i : MAXB <= 68 -> (u32 n < Z.of_nat MAXB)%Z -> (exists b, choose_64 MAXB n i = Ok b) \/ choose_64 MAXB n i = UB.
Proof.
  intros HB Hn. unfold choose_64. rewrite (proj2 (Z.ltb_lt _ _)) by lia. cbn [assert_ bind].
  assert (H0 : (0 <= u32 n)%Z) by (unfold u32; apply Z.mod_pos_bound; lia).
  destruct (calculate_table_ok MAXB ltac:(lia)) as (t & -> & _). cbn [bind]. unfold get. destruct (nth_error t _); eauto.
Qed.

(** More than one order too many, for a curve: the differences leave the vector.  The assertion
    only sees the order modulo 2^32. *)
Lemma c108_derivative_far_beyond : forall (T V : Type) (o : SOps T) (ov : VOps T V) (limit MAXB : nat) (s : spline V) (p k : nat), wf s ->
  degrees s = [p] -> p + 2 <= k -> (Z.of_nat k < 2 ^ 64)%Z -> MAXB <= 68 ->
  DerivativeWRT_64 limit MAXB s [k] = (if (Z.of_nat k mod 2 ^ 32 <? Z.of_nat MAXB)%Z then UB else AssertFail).
Proof.
  intros T V o ov limit MAXB s p k (Hd & Hn & HO & HC) D Hk HZ HB. unfold DerivativeWRT_64. remember (Z.of_nat k mod 2 ^ 32 <? Z.of_nat MAXB)%Z as q eqn:Hq.
  assert (HC' : length (control_points s) = p + 1). { rewrite HC, D. unfold n_coeffs. cbn. lia. }
  rewrite D. cbn [length]. rewrite for_up_S. cbn [for_up bind Nat.add]. unfold get at 1. cbn [nth_error bind].
  destruct (Nat.eqb_spec k 0); [lia|]. unfold get at 1. cbn [nth_error bind]. unfold set at 1. cbn [length Nat.ltb Nat.leb bind upd_list].
  unfold get at 1. cbn [nth_error bind]. set (t := w64_sub p k).
  assert (Ht : Z.of_nat t = (2 ^ 64 + Z.of_nat p - Z.of_nat k)%Z).
  { subst t. unfold w64_sub. rewrite Z2Nat.id by (apply Z.mod_pos_bound; lia). symmetry. apply (Z.mod_unique _ _ (-1)); lia. }
  edestruct (for_up_inv (fun _ (_ : T) => True)) as (f & Ef & _); [exact I| |rewrite Ef; cbn [bind]].
  { intros; eexists; split; [reflexivity|auto]. }
  rewrite count_points_64_ok. cbn [bind].
  assert (Hw1 : w64 (t + 1) = t + 1) by (apply w64_id; unfold fits64; lia).
  assert (HN : w64 (n_coeffs [t]) = S t).
  { change (n_coeffs [t]) with (prod [S t]). replace (prod [S t]) with (t + 1) by (cbn [prod fold_right]; lia). lia. }
  rewrite HN.
  match goal with |- bind (bind (for_up 0 (S t) ?f ?a) _) _ = _ => set (F := f) end.
  enough (E : for_up 0 (S t) F (control_points s) = if q then UB else AssertFail) by (rewrite E; destruct q; reflexivity).
  apply (for_up_fails F (fun _ c => c = control_points s) 0); [reflexivity|intros; lia|lia| |intros x; destruct q; discriminate].
  intros c ->. unfold F. cbn [Nat.add].
  assert (EM : multi_index_of_64 [t] 0 = Ok [0]).
  { unfold multi_index_of_64. unfold get at 1. cbn [nth_error bind]. unfold mod64. rewrite Hw1. destruct (Nat.eqb_spec (t + 1) 0); [lia|].
    rewrite Nat.mod_small by lia. cbn [bind length repeat]. unfold set at 1. cbn [length Nat.ltb Nat.leb bind upd_list Nat.sub for_up]. reflexivity. }
  rewrite EM. cbn [bind]. assert (EG : forall j, GlobalToLocalIndex_64 s [j] = Ok j).
  { intros j. unfold GlobalToLocalIndex_64. rewrite D. reflexivity. }
  rewrite EG. cbn [bind].
  match goal with |- bind (for_up 1 k ?g ?a) _ = _ => set (G := g); set (a0 := a) end.
  enough (E : for_up 1 k G a0 = if q then UB else AssertFail) by (rewrite E; destruct q; reflexivity).
  rewrite Hq. destruct (Z.ltb_spec (Z.of_nat k mod 2 ^ 32) (Z.of_nat MAXB)) as [HkB|HkB].
  - apply (for_up_ub G (fun i '(c, mi) => length c = p + 1 /\ mi = [i - 1]) p).
    + unfold a0. auto.
    + intros i (c & mi) Hi (Hc & ->). unfold G. unfold get at 1. cbn [nth_error bind]. unfold set at 1. cbn [length Nat.ltb Nat.leb bind upd_list].
      destruct (choose_64_in MAXB (Z.of_nat k) (Z.of_nat i) HB HkB) as [(b & ->)| ->]; [left|right; reflexivity].
      cbn [bind]. rewrite EG. cbn [bind]. rewrite w64_id by (unfold fits64; lia). replace (i - 1 + 1) with i by lia.
      rewrite (get_ok v0) by lia. cbn [bind]. rewrite (get_ok v0) by lia. cbn [bind]. rewrite set_ok by lia. cbn [bind]. eexists; split; [reflexivity|].
      cbv beta iota. split; [rewrite length_upd; auto|]. f_equal. lia.
    + lia.
    + intros (c & mi) (Hc & ->). unfold G. unfold get at 1. cbn [nth_error bind]. unfold set at 1. cbn [length Nat.ltb Nat.leb bind upd_list].
      destruct (choose_64_in MAXB (Z.of_nat k) (Z.of_nat (1 + p)) HB HkB) as [(b & ->)| ->]; [|reflexivity].
      cbn [bind]. rewrite EG. cbn [bind]. rewrite w64_id by (unfold fits64; lia).
      unfold get at 1. rewrite (proj2 (nth_error_None c _)) by lia. reflexivity.
  - apply (for_up_fails G (fun i '(c, mi) => length mi = 1) 0); [reflexivity|intros; lia|lia| |discriminate].
    intros (c & mi) Hm. destruct mi as [|m [|]]; try discriminate. unfold G. unfold get at 1. cbn [nth_error bind]. unfold set at 1. cbn [length Nat.ltb Nat.leb bind upd_list].
    unfold choose_64. unfold u32 at 1. rewrite (proj2 (Z.ltb_ge _ _)) by lia. reflexivity.
Qed.
