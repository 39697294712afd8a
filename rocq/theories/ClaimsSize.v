(** Sizes in 64 bits. *)
From Coq Require Import Arith Lia List ZArith NArith Bool.
From Verif Require Import Prelude Scalar Spec SpecSpline ModelBasis ModelSpline ProofIndex ProofMul ModelSize ProofSize ClaimsA ClaimsD.
Import ListNotations.

Lemma n_coeffs_Z degs : Z.of_nat (n_coeffs degs) = fold_right Z.mul 1%Z (map (fun p => Z.of_nat p + 1)%Z degs).
Proof. induction degs as [|p degs IH]; [reflexivity|]. rewrite n_coeffs_cons, Nat2Z.inj_mul, IH. cbn [map fold_right]. f_equal. lia. Qed.

Lemma c103_points : forall (V : Type) (deg : list nat) (pts : list V) (s : spline V),
  Spline_deg_points_64 deg pts = Ok s <->
  deg <> [] /\ Z.of_nat (length pts) = (Z.of_nat (n_coeffs deg) mod 2 ^ 64)%Z /\
  degrees s = deg /\ control_points s = pts /\ number_of_control_points s = length pts /\
  length (index_offsets s) = length deg /\
  forall k, k < length deg -> Z.of_nat (nth k (index_offsets s) 0) = (Z.of_nat (n_coeffs (firstn k deg)) mod 2 ^ 64)%Z.
Proof.
  intros V deg pts s. unfold Spline_deg_points_64. rewrite count_points_64_ok. cbn [bind]. split.
  - intros E. destruct deg as [|p deg]; [discriminate|]. rewrite UpdateIndexOffsets_64_ok in E by discriminate. cbn [bind] in E.
    destruct (Nat.eqb_spec (w64 (n_coeffs (p :: deg))) (length pts)) as [H|H]; [|discriminate]. cbn [assert_ bind] in E. remember (map w64 (offsets (p :: deg))) as OF eqn:EO. injection E as E. subst s.
    cbn [degrees control_points number_of_control_points index_offsets].
    split; [discriminate|]. split; [rewrite <- H; apply w64_Z|]. do 2 (split; [reflexivity|]). split; [auto|].
    subst OF. split; [now rewrite map_length, length_offsets|]. intros k Hk.
    rewrite (nth_indep _ 0 (w64 0)) by (rewrite map_length, length_offsets; lia). rewrite map_nth, w64_Z, nth_offsets by lia. reflexivity.
  - intros (Hd & HL & D & C & N & LO & HO). rewrite UpdateIndexOffsets_64_ok by auto. cbn [bind].
    assert (H : w64 (n_coeffs deg) = length pts) by (apply Nat2Z.inj; rewrite w64_Z; auto).
    rewrite H, Nat.eqb_refl. cbn [assert_ bind]. f_equal. destruct s as [d n off c]. cbn [degrees control_points number_of_control_points index_offsets] in *.
    subst d c n. f_equal. apply (list_ext 0); [now rewrite map_length, length_offsets|]. rewrite map_length, length_offsets. intros k Hk.
    rewrite (nth_indep _ 0 (w64 0)) by (rewrite map_length, length_offsets; lia). rewrite map_nth, nth_offsets by lia.
    apply Nat2Z.inj. rewrite w64_Z, HO by auto. reflexivity.
Qed.

Lemma c103_construct_partial : forall (T V : Type) (o : SOps T) (ov : VOps T V) (limit : nat) (deg : list nat),
  deg <> [] -> (Z.of_nat (n_coeffs deg) < 2 ^ 64)%Z ->
  (forall pts : list V, (length pts = n_coeffs deg -> exists s, Spline_deg_points_64 deg pts = Ok s /\ wf s /\ degrees s = deg /\ control_points s = pts) /\
     (length pts <> n_coeffs deg -> Spline_deg_points_64 deg pts = AssertFail)) /\
  (n_coeffs deg <= limit ->
     (exists s : spline V, Spline_deg_64 limit deg = Ok s /\ wf s /\ degrees s = deg /\ control_points s = repeat v0 (n_coeffs deg)) /\
     forall s : spline V, exists r, UpdateDegrees_64 limit s deg = Ok r /\ wf r /\ degrees r = deg /\
       forall i, i < n_coeffs deg -> nth i (control_points r) v0 = nth i (control_points s) v0) /\
  (limit < n_coeffs deg -> Spline_deg_64 limit deg = Throw (A := spline V) /\ forall s : spline V, UpdateDegrees_64 limit s deg = Throw).
Proof.
  intros T V o ov limit deg Hd HF. change (fits64 (n_coeffs deg)) in HF. split; [|split].
  - intros pts. unfold Spline_deg_points_64. rewrite count_points_64_ok, UpdateIndexOffsets_64_ok by auto. cbn [bind].
    rewrite w64_id, offsets_64_id by auto. split; intros H.
    + rewrite H, Nat.eqb_refl. cbn [assert_ bind]. eexists. split; [reflexivity|]. repeat split; auto.
    + destruct (Nat.eqb_spec (n_coeffs deg) (length pts)); [lia|]. reflexivity.
  - intros Hl. unfold Spline_deg_64, UpdateDegrees_64. rewrite count_points_64_ok, UpdateIndexOffsets_64_ok by auto. cbn [bind].
    rewrite w64_id, offsets_64_id by auto. destruct (Nat.ltb_spec limit (n_coeffs deg)); [lia|]. cbn [bind]. split.
    + eexists. split; [reflexivity|]. repeat split; auto. cbn [control_points degrees]. apply repeat_length.
    + intros s. eexists. split; [reflexivity|]. repeat split; auto; cbn [control_points degrees].
      * unfold resize. rewrite app_length, firstn_length, repeat_length. lia.
      * intros i Hi. unfold resize. destruct (Nat.lt_ge_cases i (length (control_points s))) as [A|A].
        -- rewrite app_nth1 by (rewrite firstn_length; lia). rewrite <- (firstn_skipn (n_coeffs deg) (control_points s)) at 2.
           rewrite app_nth1 by (rewrite firstn_length; lia). reflexivity.
        -- rewrite app_nth2 by (rewrite firstn_length; lia). rewrite nth_repeat. now rewrite nth_overflow by lia.
  - intros Hl. unfold Spline_deg_64, UpdateDegrees_64. rewrite count_points_64_ok. cbn [bind]. rewrite w64_id by auto.
    destruct (Nat.ltb_spec limit (n_coeffs deg)); [auto|lia].
Qed.

Lemma c103_wf : forall (V : Type) (deg : list nat) (pts : list V) (s : spline V),
  Spline_deg_points_64 deg pts = Ok s -> (wf s <-> (Z.of_nat (n_coeffs deg) < 2 ^ 64)%Z).
Proof.
  intros V deg pts s E. pose proof (proj1 (c103_points V deg pts s) E) as (Hd & HL & D & C & N & LO & HO). split.
  - intros (_ & _ & _ & W). rewrite D, C in W. rewrite <- W, HL. apply Z.mod_pos_bound. reflexivity.
  - intros HF. unfold Spline_deg_points_64 in E. rewrite count_points_64_ok, UpdateIndexOffsets_64_ok in E by auto. cbn [bind] in E.
    rewrite w64_id, offsets_64_id in E by auto. destruct (Nat.eqb_spec (n_coeffs deg) (length pts)) as [H|H]; [|discriminate]. cbn [assert_ bind] in E.
    injection E as E. subst s. repeat split; auto.
Qed.

Lemma c103_construct_refuted : forall V : Type,
  (exists deg, length deg = 1 /\ Spline_deg_points_64 deg ([] : list V) <> AssertFail /\ n_coeffs deg <> 0 /\
     exists s : spline V, Spline_deg_points_64 deg [] = Ok s /\ ~ wf s /\ ControlPoint_64 s [0] = UB) /\
  (exists deg, length deg = 2 /\
     exists s : spline V, Spline_deg_points_64 deg [] = Ok s /\ ~ wf s /\ ControlPoint_64 s [0; 0] = UB) /\
  (forall a b c d : V, exists deg, length deg = 2 /\ nth 1 deg 0 = 1 /\
     exists s : spline V, Spline_deg_points_64 deg [a; b; c; d] = Ok s /\ ~ wf s /\ ControlPoint_64 s [0; 1] = UB).
Proof.
  intros V.
  assert (K : forall (deg : list nat) (pts : list V), deg <> [] -> (2 ^ 64 <= Z.of_nat (n_coeffs deg))%Z ->
    Z.of_nat (length pts) = (Z.of_nat (n_coeffs deg) mod 2 ^ 64)%Z ->
    exists s, Spline_deg_points_64 deg pts = Ok s /\ ~ wf s /\ degrees s = deg /\ control_points s = pts /\ index_offsets s = map w64 (offsets deg)).
  { intros deg pts Hd HB HL.
    set (s := mkSpline deg (length pts) (map w64 (offsets deg)) pts).
    assert (E : Spline_deg_points_64 deg pts = Ok s).
    { apply c103_points. split; [auto|]. split; [auto|]. do 3 (split; [reflexivity|]). cbn [s index_offsets].
      split; [now rewrite map_length, length_offsets|]. intros k Hk.
      rewrite (nth_indep _ 0 (w64 0)) by (rewrite map_length, length_offsets; lia). rewrite map_nth, w64_Z, nth_offsets by lia. reflexivity. }
    exists s. split; [auto|]. split; [|auto]. intros W. apply (c103_wf _ _ _ _ E) in W. lia. }
  split; [|split].
  - destruct (Z_of_nat_complete (2 ^ 64 - 1) ltac:(discriminate)) as (p & Hp).
    assert (EN : Z.of_nat (n_coeffs [p]) = (2 ^ 64)%Z) by (rewrite n_coeffs_Z; cbn [map fold_right]; rewrite <- Hp; reflexivity).
    destruct (K [p] [] ltac:(discriminate) ltac:(rewrite EN; apply Z.le_refl) ltac:(rewrite EN; reflexivity)) as (s & E & W & D & C & O).
    exists [p]. split; [reflexivity|]. split; [rewrite E; discriminate|]. split; [intros H; rewrite H in EN; discriminate|].
    exists s. split; [auto|]. split; [auto|]. unfold ControlPoint_64, GlobalToLocalIndex_64. rewrite D, C. reflexivity.
  - destruct (Z_of_nat_complete (2 ^ 32 - 1) ltac:(discriminate)) as (p & Hp).
    assert (EN : Z.of_nat (n_coeffs [p; p]) = (2 ^ 64)%Z) by (rewrite n_coeffs_Z; cbn [map fold_right]; rewrite <- Hp; reflexivity).
    destruct (K [p; p] [] ltac:(discriminate) ltac:(rewrite EN; apply Z.le_refl) ltac:(rewrite EN; reflexivity)) as (s & E & W & D & C & O).
    exists [p; p]. split; [reflexivity|]. exists s. split; [auto|]. split; [auto|].
    unfold ControlPoint_64, GlobalToLocalIndex_64. rewrite D, C, O. cbn [get nth_error bind length Nat.sub for_up].
    rewrite (get_ok 0) by (rewrite map_length, length_offsets; simpl; lia). cbn [bind]. rewrite Nat.mul_0_r. reflexivity.
  - intros a b c d. destruct (Z_of_nat_complete (2 ^ 63 + 1) ltac:(discriminate)) as (p & Hp).
    assert (EN : Z.of_nat (n_coeffs [p; 1]) = (2 ^ 64 + 4)%Z) by (rewrite n_coeffs_Z; cbn [map fold_right]; rewrite <- Hp; reflexivity).
    destruct (K [p; 1] [a; b; c; d] ltac:(discriminate) ltac:(rewrite EN; discriminate) ltac:(rewrite EN; reflexivity)) as (s & E & W & D & C & O).
    exists [p; 1]. split; [reflexivity|]. split; [reflexivity|]. exists s. split; [auto|]. split; [auto|].
    unfold ControlPoint_64, GlobalToLocalIndex_64. rewrite D, C, O. cbn [get nth_error bind length Nat.sub for_up].
    rewrite (get_ok 0) by (rewrite map_length, length_offsets; simpl; lia). cbn [bind].
    rewrite (nth_indep _ 0 (w64 0)) by (rewrite map_length, length_offsets; simpl; lia). rewrite map_nth, nth_offsets by (simpl; lia).
    assert (EN1 : Z.of_nat (n_coeffs (firstn 1 [p; 1])) = (2 ^ 63 + 2)%Z) by (cbn [firstn]; rewrite n_coeffs_Z; cbn [map fold_right]; rewrite <- Hp; reflexivity).
    remember (n_coeffs (firstn 1 [p; 1])) as m. assert (Fm : fits64 m) by (unfold fits64; rewrite EN1; reflexivity).
    rewrite (w64_id m) by auto. rewrite Nat.mul_1_r, Nat.add_0_l, w64_w64, w64_id by auto. unfold get.
    replace (nth_error [a; b; c; d] m) with (@None V); [reflexivity|]. symmetry. apply nth_error_None. cbn [length].
    apply Nat2Z.inj_le. rewrite EN1. discriminate.
Qed.

Lemma c103_index : forall (V : Type) (s : spline V), wf s -> (Z.of_nat (n_coeffs (degrees s)) < 2 ^ 64)%Z ->
  (forall i, i < n_coeffs (degrees s) -> exists idx, LocalToGlobalIndex_64 s i = Ok idx /\ valid_index (degrees s) idx /\ GlobalToLocalIndex_64 s idx = Ok i) /\
  (forall idx, valid_index (degrees s) idx -> exists i x, GlobalToLocalIndex_64 s idx = Ok i /\ i < n_coeffs (degrees s) /\
     LocalToGlobalIndex_64 s i = Ok idx /\ ControlPoint_64 s idx = Ok x /\ nth_error (control_points s) i = Some x).
Proof.
  intros V s W HF. change (fits64 (n_coeffs (degrees s))) in HF. split.
  - intros i Hi. exists (index_of (degrees s) i). rewrite LocalToGlobal_64_same, LocalToGlobal_ok by auto.
    pose proof (index_of_valid (degrees s) i) as HV. split; [auto|]. split; [auto|].
    apply GlobalToLocal_64_same; [eapply fits64_le; [|exact HF]; lia|].
    rewrite GlobalToLocal_ok by (auto; apply valid_index_length; auto). now rewrite position_index_of.
  - intros idx HV. pose proof (position_lt _ _ HV) as HP. pose proof (valid_index_length _ _ HV) as HL.
    assert (HG : GlobalToLocalIndex s idx = Ok (position (degrees s) idx)) by (apply GlobalToLocal_ok; auto).
    assert (HG' := GlobalToLocal_64_same s idx _ (fits64_le _ _ (Nat.lt_le_incl _ _ HP) HF) HG).
    destruct (nth_error (control_points s) (position (degrees s) idx)) as [x|] eqn:EX.
    2:{ apply nth_error_None in EX. destruct W as (_ & _ & _ & L). lia. }
    exists (position (degrees s) idx), x. split; [auto|]. split; [auto|].
    rewrite LocalToGlobal_64_same, LocalToGlobal_ok by auto. split; [now rewrite index_of_position|].
    unfold ControlPoint_64. rewrite HG'. cbn [bind]. unfold get. rewrite EX. auto.
Qed.

Lemma c103_product_partial : forall (T V1 V2 V3 : Type) (o : SOps T) (o3 : VOps T V3) (pmul : V1 -> V2 -> V3) (limit MAXB : nat) (P : spline V1) (Q : spline V2) r,
  MAXB <= 68 -> wf P -> wf Q -> length (degrees Q) = length (degrees P) ->
  (Z.of_nat (n_coeffs (map2 Nat.add (degrees P) (degrees Q))) < 2 ^ 64)%Z -> n_coeffs (map2 Nat.add (degrees P) (degrees Q)) <= limit ->
  spline_mul MAXB pmul P Q = Ok r -> spline_mul_64 limit MAXB pmul P Q = Ok r.
Proof. intros. apply spline_mul_64_same; auto. Qed.

Lemma c103_product_scalar_partial : forall (T : Type) (o : SOps T) (F : SField T) (limit MAXB : nat) (P Q : spline T),
  MAXB <= 68 -> wf P -> wf Q -> length (degrees Q) = length (degrees P) ->
  Forall (fun p => p < MAXB) (map2 Nat.add (degrees P) (degrees Q)) ->
  (Z.of_nat (number_of_control_points P) * Z.of_nat (number_of_control_points Q) < 2 ^ 64)%Z ->
  number_of_control_points P * number_of_control_points Q <= limit ->
  exists r : spline T, spline_mul_64 limit MAXB (fun a b => smul a b) P Q = Ok r /\ wf r /\
    forall xs : list T, length xs = length (degrees P) ->
      exists a b, Evaluate P xs = Ok a /\ Evaluate Q xs = Ok b /\ Evaluate r xs = Ok (smul a b).
Proof.
  intros T o F limit MAXB P Q HM HP HQ HL HD HN Hlim.
  destruct (c20_product_scalar_scalar T o F MAXB P Q HM HP HQ HL HD) as (r & E & W & D & K).
  assert (LE : n_coeffs (map2 Nat.add (degrees P) (degrees Q)) <= n_coeffs (degrees P) * n_coeffs (degrees Q)).
  { clear - HL. revert HL. generalize (degrees P) (degrees Q). induction l as [|a l IH]; intros [|b m] H; try discriminate; [auto|].
    cbn [map2]. rewrite !n_coeffs_cons. specialize (IH m ltac:(simpl in H; lia)).
    transitivity (S (a + b) * (n_coeffs l * n_coeffs m)); [apply Nat.mul_le_mono; lia|]. nia. }
  destruct HP as (P1 & P2 & P3 & P4). destruct HQ as (Q1 & Q2 & Q3 & Q4). rewrite P2, Q2 in *.
  exists r. split; [|split; auto]. apply spline_mul_64_same; auto; try (repeat split; auto; fail); [unfold fits64|]; lia.
Qed.

Lemma c103_product_refuted : forall (T : Type) (o : SOps T) (F : SField T) (limit MAXB : nat), exists P Q : spline T,
  wf P /\ wf Q /\ length (degrees Q) = length (degrees P) /\ Forall (fun p => p <= 1) (map2 Nat.add (degrees P) (degrees Q)) /\
  number_of_control_points P = number_of_control_points Q /\ Z.of_nat (number_of_control_points P) = (2 ^ 32)%Z /\
  exists r : spline T, spline_mul_64 limit MAXB (fun a b => smul a b) P Q = Ok r /\ control_points r = [] /\ number_of_control_points r = 0 /\ ~ wf r.
Proof.
  intros T o F limit MAXB.
  assert (K : forall degs, degs <> [] -> exists P : spline T, wf P /\ degrees P = degs /\ number_of_control_points P = n_coeffs degs).
  { intros degs H. exists (mk degs (repeat s0 (n_coeffs degs))). split; [|split; reflexivity]. repeat split; auto. apply repeat_length. }
  destruct (K (repeat 1 32 ++ repeat 0 32) ltac:(discriminate)) as (P & WP & DP & NP).
  destruct (K (repeat 0 32 ++ repeat 1 32) ltac:(discriminate)) as (Q & WQ & DQ & NQ).
  assert (ZP : Z.of_nat (number_of_control_points P) = (2 ^ 32)%Z) by (rewrite NP, n_coeffs_Z; vm_compute; reflexivity).
  assert (ZQ : Z.of_nat (number_of_control_points Q) = (2 ^ 32)%Z) by (rewrite NQ, n_coeffs_Z; vm_compute; reflexivity).
  assert (EN : Z.of_nat (n_coeffs (repeat 1 64)) = (2 ^ 64)%Z) by (rewrite n_coeffs_Z; vm_compute; reflexivity).
  assert (EW : w64 (n_coeffs (repeat 1 64)) = 0) by (apply Nat2Z.inj; rewrite w64_Z, EN; reflexivity).
  exists P, Q. split; [auto|]. split; [auto|]. rewrite DP, DQ. split; [reflexivity|]. split; [vm_compute; repeat constructor|].
  split; [apply Nat2Z.inj; congruence|]. split; [auto|].
  unfold spline_mul_64. rewrite DP, DQ.
  assert (EP : for_up 0 (length (repeat 1 32 ++ repeat 0 32)) (fun i pd => do a <- get (repeat 1 32 ++ repeat 0 32) i;
    do b <- get (repeat 0 32 ++ repeat 1 32) i; set pd i (w64 (a + b))) (repeat 0 (length (repeat 1 32 ++ repeat 0 32))) = Ok (repeat 1 64)) by (vm_compute; reflexivity).
  rewrite EP. cbn [bind].
  unfold Spline_deg_64. rewrite count_points_64_ok. cbn [bind]. rewrite EW.
  destruct (Nat.ltb_spec limit 0); [lia|]. rewrite UpdateIndexOffsets_64_ok by discriminate. cbn [bind].
  eexists. split; [reflexivity|]. split; [reflexivity|]. split; [reflexivity|].
  intros (_ & W & _). cbn [number_of_control_points degrees] in W. rewrite <- W in EN. discriminate.
Qed.

Lemma c103_product_zero_refuted : forall (T V : Type) (o : SOps T) (ov : VOps T V) (F : SField T) (M : VMod T V) (limit MAXB m : nat)
  (P : spline V) (Q : spline T),
  (2 ^ 31 <= Z.of_nat m < 2 ^ 32)%Z -> m + 1 <= limit -> wf P -> wf Q -> degrees P = [m] -> degrees Q = [0] ->
  exists r : spline V, spline_mul_64 limit MAXB (fun p c => vscale c p) P Q = Ok r /\ wf r /\ degrees r = [m] /\
    control_points r = repeat v0 (m + 1) /\
    exists p q, control_points P = p :: tl (control_points P) /\ control_points Q = [q] /\
      Evaluate P [s0] = Ok p /\ Evaluate Q [s0] = Ok q /\ Evaluate r [s0] = Ok v0.
Proof.
  intros T V o ov F M limit MAXB m P Q Hm HL WP WQ DP DQ. pose proof WP as (_ & _ & _ & CP). pose proof WQ as (_ & _ & _ & CQ).
  assert (N1 : n_coeffs [m] = m + 1) by (unfold n_coeffs; cbn; lia). assert (NF : fits64 (m + 1)) by (unfold fits64; lia).
  set (r := mk [m] (repeat (v0 : V) (m + 1))).
  assert (Wr : wf r) by (repeat split; [discriminate|unfold r; cbn [control_points mk degrees]; rewrite N1; apply repeat_length]).
  assert (EQ : forall (W : Type) (w : VOps T W) (MW : VMod T W) (s : spline W) p, wf s -> degrees s = [p] -> Evaluate s [s0] = Ok (nth 0 (control_points s) v0)).
  { intros W w MW s p Ws Ds. destruct (c11_corner_interpolation T W o w F MW s [false] Ws) as (x & E & EC); [rewrite Ds; reflexivity|].
    rewrite Ds in EC. cbn [combine map fst snd] in EC, E. rewrite E. f_equal. unfold ControlPoint in EC. rewrite GlobalToLocal_ok in EC by (auto; rewrite Ds; reflexivity).
    cbn [bind] in EC. apply (get_inv v0) in EC. destruct EC as (_ & EC). rewrite <- EC || rewrite EC. rewrite Ds. cbn [position]. f_equal; lia. }
  exists r. split; [|split; [auto|split; [reflexivity|split; [reflexivity|]]]].
  - unfold spline_mul_64. rewrite DP, DQ. cbn [length for_up bind repeat]. unfold get, set. cbn [nth_error bind length Nat.ltb Nat.leb upd_list].
    rewrite Nat.add_0_r, w64_id by (unfold fits64; lia). cbn [bind].
    unfold Spline_deg_64. rewrite count_points_64_ok. cbn [bind]. rewrite N1, w64_id by auto. destruct (Nat.ltb_spec limit (m + 1)); [lia|].
    rewrite UpdateIndexOffsets_64_ok by discriminate. cbn [bind].
    change (map w64 (offsets [m])) with [w64 1]. rewrite w64_1.
    replace (mkSpline [m] (m + 1) [1] (repeat (v0 : V) (m + 1))) with r by (unfold r, mk; rewrite N1; reflexivity).
    edestruct (for_up_inv (fun _ x => x = r)) as (x & E & ->); [reflexivity| |exact E].
    cbv beta. intros i x Hi ->. rewrite LocalToGlobal_64_same by (auto; rewrite <- N1 in NF; exact NF). rewrite LocalToGlobal_ok by auto.
    cbn [bind]. exists r. split; [|reflexivity]. cbn [degrees r mk index_of]. cbn [length CombineControlPoints_64]. rewrite DP, DQ. unfold get. cbn [nth_error length bind].
    assert (Em : i32 (Z.of_nat m) = (Z.of_nat m - 2 ^ 32)%Z).
    { unfold i32. replace (Z.of_nat m + 2 ^ 31)%Z with (Z.of_nat m - 2 ^ 31 + 1 * 2 ^ 32)%Z by lia. rewrite Z.mod_add by lia. rewrite Z.mod_small by lia. lia. }
    rewrite Em. change (i32 (Z.of_nat 0)) with 0%Z. rewrite Z.sub_0_r.
    set (k := i32 (Z.of_nat (i mod S m))). assert (Hk : (- 2 ^ 31 <= k < 2 ^ 31)%Z).
    { subst k. unfold i32. pose proof (Z.mod_pos_bound (Z.of_nat (i mod S m) + 2 ^ 31) (2 ^ 32) ltac:(lia)). lia. }
    rewrite int_id by auto. cbn [bind]. replace (Z.to_nat (Z.min k (Z.of_nat m - 2 ^ 32) + 1 - Z.of_nat (Z.to_nat (Z.max 0 k)))) with 0 by lia. reflexivity.
  - rewrite DP in CP. rewrite DQ in CQ. rewrite N1 in CP. destruct (control_points P) as [|p cp] eqn:EP; [cbn in CP; lia|].
    destruct (control_points Q) as [|q [|]] eqn:EqQ; try discriminate. exists p, q. split; [reflexivity|]. split; [reflexivity|].
    rewrite (EQ V ov M P m), (EQ T _ _ Q 0), (EQ V ov M r m) by auto. rewrite EP, EqQ. cbn [control_points r mk]. rewrite nth_repeat. auto.
Qed.
