(** Differences of control points under refinement, and the distance of the control points from the spline. *)
From Coq Require Import Arith Lia List ZArith Bool Ring Field Reals Lra Psatz.
From Verif Require Import Prelude Scalar Spec SpecSpline Sums Coord ModelBasis ModelSpline ProofIndex ProofBasis ProofEval
  ProofElevate ProofMul ProofSplit ProofDerivSpline ProofCasteljau ProofRaw ProofSeam ProofRoundOps ProofRoundEval ProofParam SpecNet.
Import ListNotations.
Local Open Scope nat_scope.

(** ** Differences along a line of coefficients, over any field *)
Section Lines.
Context {T V : Type} {o : SOps T} {ov : VOps T V} {F : SField T} {M : VMod T V}.
Add Field Tfield : (@sf_th T o F).
Add Ring Ering : (@ext_ring T V o ov F M).
Ltac vring := to_ext; ring.

Definition d1 (f : nat -> V) (j : nat) : V := vsub (f (j + 1)) (f j).
Definition d2 (f : nat -> V) (j : nat) : V := vsub (vsub (f (j + 2)) (f (j + 1))) (vsub (f (j + 1)) (f j)).
Lemma d2_d1 f j : d2 f j = d1 (d1 f) j.
Proof. unfold d2, d1. rewrite <- Nat.add_assoc. reflexivity. Qed.

Lemma dc_sub x (f g : nat -> V) r j : dc x (fun i => vsub (f i) (g i)) r j = vsub (dc x f r j) (dc x g r j).
Proof. revert j; induction r; intros j; [reflexivity|]. cbn [dc]. rewrite !IHr. vring. Qed.
Lemma dc_ext x (f g : nat -> V) r j : (forall i, j <= i <= j + r -> f i = g i) -> dc x f r j = dc x g r j.
Proof. revert j; induction r; intros j H; cbn [dc]; [apply H; lia|]. rewrite !IHr; auto; intros; apply H; lia. Qed.
Lemma dc_shift x (f : nat -> V) c r j : dc x (fun i => f (i + c)) r j = dc x f r (j + c).
Proof. revert j; induction r; intros j; [reflexivity|]. cbn [dc]. rewrite !IHr. reflexivity. Qed.
Lemma dc_d1 x f r j : d1 (dc x f r) j = dc x (d1 f) r j.
Proof. unfold d1 at 2. rewrite dc_sub, dc_shift. reflexivity. Qed.
Lemma d1_ext f g j : f j = g j -> f (j + 1) = g (j + 1) -> d1 f j = d1 g j.
Proof. unfold d1. congruence. Qed.

(** The left part: coefficient [i] is [dc x f i 0]; the right part: [dc x f (p - i) i]. *)
Lemma left_d1 x f i : d1 (fun i => dc x f i 0) i = vscale x (dc x (d1 f) i 0).
Proof. rewrite <- dc_d1. unfold d1. rewrite Nat.add_1_r. cbn [dc Nat.add]. vring. Qed.
Lemma d1_scale c f i : d1 (fun i => vscale c (f i)) i = vscale c (d1 f i).
Proof. unfold d1. vring. Qed.
Lemma left_d2 x f i : d2 (fun i => dc x f i 0) i = vscale (smul x x) (dc x (d2 f) i 0).
Proof.
  rewrite d2_d1. rewrite (d1_ext _ (fun i => vscale x (dc x (d1 f) i 0))) by apply left_d1.
  rewrite d1_scale, left_d1, <- vm_mul. f_equal. apply dc_ext. intros. symmetry. apply d2_d1.
Qed.
Lemma right_d1 x f p i : i + 1 <= p -> d1 (fun i => dc x f (p - i) i) i = vscale (ssub s1 x) (dc x (d1 f) (p - 1 - i) i).
Proof.
  intros H. rewrite <- dc_d1. unfold d1. replace (p - i) with (S (p - 1 - i)) by lia. replace (p - (i + 1)) with (p - 1 - i) by lia.
  cbn [dc]. replace (S i) with (i + 1) by lia. vring.
Qed.
Lemma right_d2 x f p i : i + 2 <= p -> d2 (fun i => dc x f (p - i) i) i = vscale (smul (ssub s1 x) (ssub s1 x)) (dc x (d2 f) (p - 2 - i) i).
Proof.
  intros H. rewrite d2_d1. rewrite (d1_ext _ (fun i => vscale (ssub s1 x) (dc x (d1 f) (p - 1 - i) i))) by (apply right_d1; lia).
  rewrite d1_scale, right_d1, <- vm_mul by lia. f_equal. replace (p - 1 - 1 - i) with (p - 2 - i) by lia. apply dc_ext. intros. symmetry. apply d2_d1.
Qed.

(** Elevation of a line: the differences are elevated differences of degree one less. *)
Lemma relev_gen p f i : i <= p + 1 -> sofnat (p + 1) <> (s0 : T) -> relev p f i =
  vadd (vscale (ssub s1 (sdiv (sofnat i) (sofnat (p + 1)))) (f i)) (vscale (sdiv (sofnat i) (sofnat (p + 1))) (f (i - 1))).
Proof.
  intros Hi Hz. destruct (Nat.eq_dec i 0) as [->|H0].
  - rewrite relev_0, sofnat_0. replace (sdiv s0 (sofnat (p + 1))) with (s0 : T) by (field; auto). cbn [Nat.sub]. vring.
  - destruct (Nat.eq_dec i (p + 1)) as [->|H1].
    + rewrite relev_last. replace (sdiv (sofnat (p + 1)) (sofnat (p + 1))) with (s1 : T) by (field; auto).
      replace (p + 1 - 1) with p by lia. vring.
    + rewrite relev_mid by lia. cbv zeta. replace (smul (sofnat i) (sdiv s1 (sofnat (p + 1)))) with (sdiv (sofnat i) (sofnat (p + 1)) : T) by (field; auto). reflexivity.
Qed.
Lemma relev_d1 p f i : i <= p + 1 -> d1 (relev (p + 1) f) i = vscale (sdiv (sofnat (p + 1)) (sofnat (p + 2))) (relev p (d1 f) i).
Proof.
  intros Hi. assert (Z1 : sofnat (p + 1) <> (s0 : T)) by (apply sofnat_neq0; lia). assert (Z2 : sofnat (p + 2) <> (s0 : T)) by (apply sofnat_neq0; lia).
  unfold d1 at 1. rewrite !relev_gen by (auto; try lia; replace (p + 1 + 1) with (p + 2) by lia; auto).
  replace (p + 1 + 1) with (p + 2) by lia. unfold d1. replace (i + 1 - 1) with i by lia.
  set (A := sdiv (sofnat i) (sofnat (p + 1))). set (B := sdiv (sofnat (p + 1)) (sofnat (p + 2))).
  assert (E1 : sdiv (sofnat i) (sofnat (p + 2)) = smul A B) by (unfold A, B; field; auto).
  assert (E2 : sdiv (sofnat (i + 1)) (sofnat (p + 2)) = sadd (smul A B) (ssub s1 B)).
  { unfold A, B. replace (sofnat (p + 2)) with (sadd (sofnat (p + 1)) (s1 : T)) in *.
    2:{ rewrite <- sofnat_1, <- sofnat_add. f_equal. lia. }
    rewrite sofnat_add, sofnat_1. field; auto. }
  rewrite E1, E2. destruct (Nat.eq_dec i 0) as [E|E].
  - assert (EA : A = s0) by (unfold A; rewrite E, sofnat_0; field; auto). rewrite EA. clearbody B. vring.
  - replace (i - 1 + 1) with i by lia. clearbody A B. vring.
Qed.
Lemma relev_d2 p f i : i <= p + 1 -> d2 (relev (p + 2) f) i = vscale (sdiv (sofnat (p + 1)) (sofnat (p + 3))) (relev p (d2 f) i).
Proof.
  intros Hi. rewrite d2_d1.
  assert (Z1 : sofnat (p + 1) <> (s0 : T)) by (apply sofnat_neq0; lia). assert (Z2 : sofnat (p + 2) <> (s0 : T)) by (apply sofnat_neq0; lia).
  assert (Z3 : sofnat (p + 3) <> (s0 : T)) by (apply sofnat_neq0; lia).
  rewrite (d1_ext _ (fun i => vscale (sdiv (sofnat (p + 2)) (sofnat (p + 3))) (relev (p + 1) (d1 f) i))).
  2,3: replace (p + 2) with (p + 1 + 1) by lia; rewrite relev_d1 by lia; replace (p + 1 + 1) with (p + 2) by lia; replace (p + 1 + 2) with (p + 3) by lia; reflexivity.
  rewrite d1_scale, relev_d1, <- vm_mul by lia.
  rewrite !relev_gen by (auto; lia). f_equal; [field; auto|]. unfold d2, d1. rewrite <- !Nat.add_assoc. reflexivity.
Qed.
Lemma relev_sub p (f g : nat -> V) i : relev p (fun i => vsub (f i) (g i)) i = vsub (relev p f i) (relev p g i).
Proof. unfold relev. destruct (i =? 0); [reflexivity|]. destruct (i =? p + 1); [reflexivity|]. cbv zeta. vring. Qed.
End Lines.

Local Open Scope R_scope.
Section Net.
Context {V : Type} {ov : VOps R V} {M : VMod R V}.

Lemma seminorm_sublinear (N : V -> R) : seminorm N -> sublinear N.
Proof. intros (A & B). split; [exact A|]. intros c a Hc. rewrite B, Rabs_pos_eq by auto. reflexivity. Qed.
Lemma N_0 (N : V -> R) : sublinear N -> N v0 = 0.
Proof. intros HN. rewrite <- (vscale_0_l (S := R) (v0 : V)). cbn [s0 SOps_R]. change R0 with 0. rewrite (proj2 HN) by lra. lra. Qed.
Lemma N_nonneg (N : V -> R) : seminorm N -> forall a, 0 <= N a.
Proof.
  intros HN a. assert (E : (v0 : V) = vadd a (vscale (-1) a)).
  { rewrite <- (vscale_0_l (S := R) a). transitivity (vscale (1 + -1) a); [f_equal; cbn [s0 SOps_R]; change R0 with 0; lra|].
    rewrite <- (vm_1 a) at 2. exact (vm_dl 1 (-1) a). }
  pose proof (proj1 HN a (vscale (-1) a)) as H. rewrite <- E, N_0, (proj2 HN) in H by (apply seminorm_sublinear; auto).
  replace (Rabs (-1)) with 1 in H by (rewrite Rabs_left; lra). lra.
Qed.

Context (N : V -> R) (HN : sublinear N).
Lemma N_sum n (w : nat -> R) (f : nat -> V) (B : nat -> R) : (forall i, (i < n)%nat -> 0 <= w i /\ N (f i) <= B i) ->
  N (vsum n (fun i => vscale (w i) (f i))) <= ssum n (fun i => w i * B i).
Proof.
  induction n; intros H; cbn [vsum ssum].
  - rewrite N_0 by auto. cbn. change R0 with 0. lra.
  - eapply Rle_trans; [apply (proj1 HN)|]. cbn [sadd smul SOps_R]. apply Rplus_le_compat; [apply IHn; intros; apply H; lia|].
    destruct (H n ltac:(lia)). rewrite (proj2 HN) by auto. apply Rmult_le_compat_l; auto.
Qed.

(** ** Moments of the Bernstein polynomials *)
Lemma dcas_1 x p j : dcas (V := R) x INR p j = INR j + INR p * x.
Proof.
  revert j; induction p; intros j; [rewrite dcas_0; simpl; lra|].
  rewrite dcas_S, !IHp, !S_INR. cbn. change R1 with 1. lra.
Qed.
Lemma dcas_2 x p j : dcas (V := R) x (fun i => INR i * INR i) p j = INR p * x * (1 - x) + (INR j + INR p * x) * (INR j + INR p * x).
Proof.
  revert j; induction p; intros j; [rewrite dcas_0; simpl; lra|].
  rewrite dcas_S, !IHp, !S_INR. cbn [vadd vscale VOps_scalar sadd smul ssub s1 SOps_R]. change R1 with 1. ring.
Qed.
Lemma bern_sum p x : ssum (S p) (fun j => bernstein p j x) = 1.
Proof. rewrite bernstein_sum. cbn. change R1 with 1. reflexivity. Qed.
Lemma bern_moment1 p x : ssum (S p) (fun j => bernstein p j x * INR j) = INR p * x.
Proof. pose proof (dcas_1 x p 0) as H. unfold dcas in H. rewrite ssum_vsum. cbn [vscale VOps_scalar smul SOps_R Nat.add] in H. rewrite H. simpl. lra. Qed.
Lemma bern_moment2 p x : ssum (S p) (fun j => bernstein p j x * (INR j * INR j)) = INR p * x * (1 - x) + INR p * x * (INR p * x).
Proof. pose proof (dcas_2 x p 0) as H. unfold dcas in H. rewrite ssum_vsum. cbn [vscale VOps_scalar smul SOps_R Nat.add] in H. rewrite H. simpl. lra. Qed.


Lemma N_dc x (f : nat -> V) D r j : 0 <= x <= 1 -> (forall i, (j <= i <= j + r)%nat -> N (f i) <= D) -> N (dc x f r j) <= D.
Proof.
  intros Hx. revert j; induction r; intros j H; cbn [dc]; [apply H; lia|].
  eapply Rle_trans; [apply (proj1 HN)|]. cbn [ssub s1 SOps_R]. change R1 with 1. rewrite !(proj2 HN) by lra.
  assert (A : N (dc x f r j) <= D) by (apply IHr; intros; apply H; lia).
  assert (B : N (dc x f r (S j)) <= D) by (apply IHr; intros; apply H; lia). nra.
Qed.
Lemma N_relev p (f : nat -> V) D i : (i <= p + 1)%nat -> (forall l, (l <= p)%nat -> N (f l) <= D) -> N (relev p f i) <= D.
Proof.
  intros Hi H. destruct (Nat.eq_dec i (p + 1)) as [->|E]; [rewrite relev_last; apply H; lia|].
  rewrite relev_gen by (auto; apply sofnat_neq0; lia). rewrite !sofnat_INR. cbn [ssub s1 sdiv SOps_R]. change R1 with 1.
  assert (HP : 0 < INR (p + 1)) by (apply lt_0_INR; lia).
  assert (HQ : 0 <= INR i / INR (p + 1) <= 1).
  { split; [apply Rmult_le_pos; [apply pos_INR|left; apply Rinv_0_lt_compat; auto]|].
    apply (Rmult_le_reg_r (INR (p + 1))); auto. unfold Rdiv. rewrite Rmult_assoc, Rinv_l by lra. rewrite Rmult_1_r, Rmult_1_l. apply le_INR. lia. }
  eapply Rle_trans; [apply (proj1 HN)|]. rewrite !(proj2 HN) by lra.
  pose proof (H i ltac:(lia)) as A. pose proof (H (i - 1)%nat ltac:(lia)) as B. nra.
Qed.

(** ** Lines of the control net *)
Lemma net_here (s : spline V) idx k : net s (upd_list idx k (nth k idx 0%nat)) = net s idx.
Proof. rewrite <- (Nat.add_0_r (nth k idx 0%nat)), upd_at_0. reflexivity. Qed.
Lemma split_net (s : spline V) (x : R) k : wf s -> (k < length (degrees s))%nat -> 0 < x < 1 ->
  exists a b, SplitAtPosition s x k = Ok [a; b] /\ wf a /\ wf b /\ degrees a = degrees s /\ degrees b = degrees s /\
    forall idx, valid_index (degrees s) idx -> let f i := net s (upd_list idx k i) in
      net a idx = dc x f (nth k idx 0%nat) 0 /\ net b idx = dc x f (nth k (degrees s) 0 - nth k idx 0)%nat (nth k idx 0%nat).
Proof.
  intros Hw Hk Hx. assert (L0 : slt s0 x) by (unfold slt; cbn [sltb s0 SOps_R]; destruct (Rlt_dec _ _); auto; cbn in *; lra).
  assert (L1 : slt x s1) by (unfold slt; cbn [sltb s1 SOps_R]; destruct (Rlt_dec _ _); auto; cbn in *; lra).
  destruct (SplitAtPosition_raw s x k Hw Hk L0 L1) as (c1 & c2 & E & A & B & H).
  assert (Hc : length (control_points s) = n_coeffs (degrees s)) by apply Hw.
  exists (with_cps s c1), (with_cps s c2). split; [exact E|]. split; [apply with_cps_wf; auto; congruence|].
  split; [apply with_cps_wf; auto; congruence|]. split; [reflexivity|]. split; [reflexivity|].
  intros idx HV f. destruct (position_line (degrees s) idx k HV Hk) as (a & m & Ha & Hm & HP).
  pose proof (valid_nth_le (degrees s) idx k HV) as Hi. destruct (H a _ m Ha Hi Hm) as (X & Y). rewrite <- HP in X, Y.
  rewrite <- (net_here (with_cps s c1) idx k), <- (net_here (with_cps s c2) idx k). unfold net at 1 2. cbn [with_cps degrees control_points].
  rewrite X, Y. split; apply dc_ext; intros i _; unfold f, net; rewrite HP; reflexivity.
Qed.
Lemma position_lines degs idx k r : valid_index (upd_list degs k r) idx -> (k < length degs)%nat ->
  exists a m, (a < n_coeffs (firstn k degs))%nat /\ (m < n_coeffs (skipn (S k) degs))%nat /\
    forall q j, position (upd_list degs k q) (upd_list idx k j) = (a + n_coeffs (firstn k degs) * (j + (q + 1) * m))%nat.
Proof.
  revert idx k; induction degs as [|p degs IH]; intros idx k HV Hk; [simpl in Hk; lia|]. destruct k as [|k].
  - cbn [upd_list] in HV. inversion HV as [|? i ? mi' Hi HV' E1 E2]; subst.
    exists 0%nat, (position degs mi'). split; [unfold n_coeffs; simpl; lia|]. split; [apply position_lt; exact HV'|].
    intros q j. cbn [upd_list position firstn]. unfold n_coeffs. simpl. lia.
  - cbn [upd_list] in HV. inversion HV as [|? i ? mi' Hi HV' E1 E2]; subst. destruct (IH mi' k HV') as (a & m & Ha & Hm & H); [simpl in Hk; lia|].
    exists (i + S p * a)%nat, m. cbn [firstn skipn]. rewrite n_coeffs_cons. split; [nia|]. split; [exact Hm|].
    intros q j. cbn [upd_list position]. rewrite H. nia.
Qed.
Lemma elevate_net (s : spline V) k : wf s -> (k < length (degrees s))%nat ->
  (Z.of_nat (n_coeffs (upd_list (degrees s) k (nth k (degrees s) 0 + 1)%nat)) < 2 ^ 31)%Z ->
  exists e, OrderElevate (T := R) s k = Ok e /\ wf e /\ degrees e = upd_list (degrees s) k (nth k (degrees s) 0 + 1)%nat /\
    forall idx, valid_index (degrees e) idx -> let f i := net s (upd_list idx k i) in
      net e idx = relev (nth k (degrees s) 0%nat) f (nth k idx 0%nat).
Proof.
  intros Hw Hk Hz. set (degs' := upd_list (degrees s) k (nth k (degrees s) 0 + 1)%nat) in *.
  assert (Hs : seqb (sofnat (nth k (degrees s) 0 + 1)%nat) (s0 : R) = false) by (apply seqb_neq, sofnat_neq0; lia).
  rewrite (OrderElevate_raw s k Hw Hk Hs Hz). eexists. split; [reflexivity|].
  assert (HL : length degs' = length (degrees s)) by apply length_upd.
  assert (HC : n_coeffs degs' = (n_coeffs (firstn k (degrees s)) * (nth k (degrees s) 0 + 2) * n_coeffs (skipn (S k) (degrees s)))%nat).
  { unfold degs'. rewrite (upd_split' _ _ _ Hk), n_coeffs_app, n_coeffs_cons. lia. }
  split.
  { apply wf_mk; [intros E; apply (f_equal (@length nat)) in E; rewrite length_upd in E; cbn in E; lia|]. unfold relev_points. now rewrite map_length, seq_length. }
  split; [reflexivity|]. intros idx HV f. change (valid_index degs' idx) in HV.
  destruct (position_lines (degrees s) idx k _ HV Hk) as (a & m & Ha & Hm & HP).
  assert (Hi : (nth k idx 0 <= nth k (degrees s) 0 + 1)%nat).
  { pose proof (valid_nth_le _ _ k HV) as X. unfold degs' in X. rewrite nth_upd_same in X by auto. exact X. }
  set (off := n_coeffs (firstn k (degrees s))) in *. set (p := nth k (degrees s) 0%nat) in *. set (i := nth k idx 0%nat) in *.
  assert (EP : position degs' idx = (a + off * (i + (p + 2) * m))%nat).
  { rewrite <- (upd_at_0 idx k). fold i. rewrite Nat.add_0_r. unfold degs'. rewrite HP. replace (p + 1 + 1)%nat with (p + 2)%nat by lia. reflexivity. }
  change (nth (position degs' idx) (relev_points off p (n_coeffs degs') (control_points s)) v0 = relev p f i). rewrite EP.
  rewrite nth_relev_points; auto.
  2:{ rewrite <- EP. apply position_lt. exact HV. }
  assert (EF : forall l, nth (a + off * (l + S p * m)) (control_points s) v0 = f l).
  { intros l. unfold f, net. f_equal. specialize (HP p l).
    replace (upd_list (degrees s) k p) with (degrees s) in HP by (symmetry; unfold p; apply upd_list_same; auto). rewrite HP. do 3 f_equal. lia. }
  unfold relev. rewrite !EF. reflexivity.
Qed.

(** ** Differences after refinement *)
Definition w1 (h : nat -> V) : V := vsub (h 1%nat) (h 0%nat).
Definition w2 (h : nat -> V) : V := vsub (vsub (h 2%nat) (h 1%nat)) (vsub (h 1%nat) (h 0%nat)).
Definition below (w : (nat -> V) -> V) (c : nat) (s : spline V) (j : nat) (D : R) : Prop :=
  forall idx, valid_index (degrees s) idx -> (nth j idx 0 + c <= nth j (degrees s) 0)%nat -> N (w (along s j idx)) <= D.
Lemma below_steps s j D : steps_below N s j D <-> below w1 1 s j D.
Proof. reflexivity. Qed.
Lemma below_bends s j D : bends_below N s j D <-> below w2 2 s j D.
Proof. reflexivity. Qed.
Lemma upd_far (idx : list nat) k j a b : k <> j -> upd_list (upd_list idx j a) k b = upd_list (upd_list idx k b) j a.
Proof.
  revert k j. induction idx as [|x l IH]; intros [|k] [|j] H; cbn [upd_list]; auto; try congruence. f_equal. apply IH. congruence.
Qed.
Lemma nth_far (idx : list nat) k j a : k <> j -> nth j (upd_list idx k a) 0%nat = nth j idx 0%nat.
Proof. revert k j. induction idx as [|x l IH]; intros [|k] [|j] H; cbn [upd_list nth]; auto; try congruence. Qed.
Lemma dc_w1 x (g : nat -> nat -> V) r l : w1 (fun i => dc x (g i) r l) = dc x (fun m => w1 (fun i => g i m)) r l.
Proof. unfold w1. rewrite dc_sub. reflexivity. Qed.
Lemma dc_w2 x (g : nat -> nat -> V) r l : w2 (fun i => dc x (g i) r l) = dc x (fun m => w2 (fun i => g i m)) r l.
Proof. unfold w2. rewrite !dc_sub. reflexivity. Qed.
Lemma relev_w1 p (g : nat -> nat -> V) l : w1 (fun i => relev p (g i) l) = relev p (fun m => w1 (fun i => g i m)) l.
Proof. unfold w1. rewrite relev_sub. reflexivity. Qed.
Lemma relev_w2 p (g : nat -> nat -> V) l : w2 (fun i => relev p (g i) l) = relev p (fun m => w2 (fun i => g i m)) l.
Proof. unfold w2. rewrite !relev_sub. reflexivity. Qed.

Section Other.
Variables (w : (nat -> V) -> V) (c : nat).
Hypothesis w_ext : forall h h', (forall i, (i <= c)%nat -> h i = h' i) -> w h = w h'.
Hypothesis dc_w : forall x (g : nat -> nat -> V) r l, w (fun i => dc x (g i) r l) = dc x (fun m => w (fun i => g i m)) r l.
Hypothesis relev_w : forall p (g : nat -> nat -> V) l, w (fun i => relev p (g i) l) = relev p (fun m => w (fun i => g i m)) l.
Lemma split_other (s : spline V) x k a b j D : wf s -> (k < length (degrees s))%nat -> (j < length (degrees s))%nat -> 0 < x < 1 -> j <> k ->
  SplitAtPosition s x k = Ok [a; b] -> below w c s j D -> below w c a j D /\ below w c b j D.
Proof using HN w_ext dc_w.
  intros Hw Hk Hj Hx Hjk E HD. destruct (split_net s x k Hw Hk Hx) as (a' & b' & E' & Wa & Wb & Da & Db & H).
  rewrite E in E'. injection E' as <- <-.
  assert (HB : forall idx l, valid_index (degrees s) idx -> (l <= nth k (degrees s) 0)%nat -> (nth j idx 0 + c <= nth j (degrees s) 0)%nat ->
    N (w (fun i => net s (upd_list (upd_list idx j (nth j idx 0 + i)%nat) k l))) <= D).
  { intros idx l HV Hl Hc. rewrite (w_ext _ (along s j (upd_list idx k l))).
    - apply HD; [apply valid_upd; auto|]. rewrite nth_far by auto. exact Hc.
    - intros i _. unfold along. rewrite nth_far by auto. rewrite upd_far by auto. reflexivity. }
  split; intros idx HV Hc.
  - rewrite Da in HV, Hc. rewrite (w_ext _ (fun i => dc x (fun l => net s (upd_list (upd_list idx j (nth j idx 0 + i)%nat) k l)) (nth k idx 0%nat) 0)).
    + rewrite dc_w. apply N_dc; [lra|]. intros l Hl. apply HB; auto. pose proof (valid_nth_le _ _ k HV). lia.
    + intros i Hi. unfold along. destruct (H (upd_list idx j (nth j idx 0 + i)%nat)) as (X & _); [apply valid_upd; auto; lia|].
      rewrite X. rewrite nth_far by auto. reflexivity.
  - rewrite Db in HV, Hc. rewrite (w_ext _ (fun i => dc x (fun l => net s (upd_list (upd_list idx j (nth j idx 0 + i)%nat) k l)) (nth k (degrees s) 0 - nth k idx 0)%nat (nth k idx 0%nat))).
    + rewrite dc_w. apply N_dc; [lra|]. intros l Hl. apply HB; auto. pose proof (valid_nth_le _ _ k HV). lia.
    + intros i Hi. unfold along. destruct (H (upd_list idx j (nth j idx 0 + i)%nat)) as (_ & X); [apply valid_upd; auto; lia|].
      rewrite X. rewrite nth_far by auto. reflexivity.
Qed.
Lemma valid_shrink degs idx k q l : valid_index (upd_list degs k q) idx -> (k < length degs)%nat -> (l <= nth k degs 0)%nat -> valid_index degs (upd_list idx k l).
Proof.
  intros HV Hk Hl. replace degs with (upd_list (upd_list degs k q) k (nth k degs 0%nat)).
  2:{ rewrite upd_upd. apply upd_list_same. auto. }
  unfold valid_index in *. apply Forall2_upd; auto.
Qed.
Lemma elevate_other (s : spline V) k e j D : wf s -> (k < length (degrees s))%nat -> (j < length (degrees s))%nat -> j <> k ->
  (Z.of_nat (n_coeffs (upd_list (degrees s) k (nth k (degrees s) 0 + 1)%nat)) < 2 ^ 31)%Z ->
  OrderElevate (T := R) s k = Ok e -> below w c s j D -> below w c e j D.
Proof using HN M w_ext relev_w.
  intros Hw Hk Hj Hjk Hz E HD. destruct (elevate_net s k Hw Hk Hz) as (e' & E' & We & De & H).
  rewrite E in E'. injection E' as <-. intros idx HV Hc.
  assert (Hc' : (nth j idx 0 + c <= nth j (degrees s) 0)%nat) by (rewrite De, nth_far in Hc by auto; exact Hc).
  rewrite (w_ext _ (fun i => relev (nth k (degrees s) 0%nat) (fun l => net s (upd_list (upd_list idx j (nth j idx 0 + i)%nat) k l)) (nth k idx 0%nat))).
  - rewrite relev_w. apply N_relev.
    { pose proof (valid_nth_le _ _ k HV) as X. rewrite De, nth_upd_same in X by auto. exact X. }
    intros l Hl. rewrite (w_ext _ (along s j (upd_list idx k l))).
    + apply HD; [eapply valid_shrink; eauto; rewrite <- De; exact HV|]. rewrite nth_far by auto. exact Hc'.
    + intros i _. unfold along. rewrite nth_far by auto. rewrite upd_far by auto. reflexivity.
  - intros i Hi. unfold along. rewrite H.
    2:{ apply valid_upd; auto; [lia|]. rewrite De, length_upd. auto. }
    rewrite nth_far by auto. reflexivity.
Qed.
End Other.

Lemma along_line s k idx i j : (k < length idx)%nat -> along s k (upd_list idx k i) j = net s (upd_list idx k (i + j)%nat).
Proof. intros H. unfold along. rewrite nth_upd_same, upd_upd by auto. reflexivity. Qed.
Lemma idx_len degs idx : valid_index degs idx -> length idx = length degs.
Proof. apply valid_len. Qed.
Lemma split_same1 (s : spline V) x k a b D : wf s -> (k < length (degrees s))%nat -> 0 < x < 1 ->
  SplitAtPosition s x k = Ok [a; b] -> below w1 1 s k D -> below w1 1 a k (x * D) /\ below w1 1 b k ((1 - x) * D).
Proof.
  intros Hw Hk Hx E HD. destruct (split_net s x k Hw Hk Hx) as (a' & b' & E' & Wa & Wb & Da & Db & H).
  rewrite E in E'. injection E' as <- <-.
  assert (HB : forall idx l, valid_index (degrees s) idx -> (l + 1 <= nth k (degrees s) 0)%nat -> N (d1 (fun i => net s (upd_list idx k i)) l) <= D).
  { intros idx l HV Hl. pose proof (idx_len _ _ HV) as HL. specialize (HD (upd_list idx k l)).
    unfold w1 in HD. rewrite !along_line, Nat.add_0_r in HD by lia. apply HD; [apply valid_upd; auto; lia|]. rewrite nth_upd_same by lia. exact Hl. }
  split; intros idx HV Hc; [rewrite Da in HV, Hc|rewrite Db in HV, Hc]; pose proof (idx_len _ _ HV) as HL; set (f := fun i => net s (upd_list idx k i)).
  - assert (EL : forall i, (nth k idx 0 + i <= nth k (degrees s) 0)%nat -> along a k idx i = dc x f (nth k idx 0 + i)%nat 0).
    { intros i Hi. unfold along. destruct (H (upd_list idx k (nth k idx 0 + i)%nat)) as (X & _); [apply valid_upd; auto|].
      rewrite X, nth_upd_same by lia. apply dc_ext. intros l _. unfold f. rewrite upd_upd. reflexivity. }
    unfold w1. rewrite !EL by lia. rewrite Nat.add_0_r.
    change (vsub (dc x f (nth k idx 0 + 1)%nat 0) (dc x f (nth k idx 0%nat) 0)) with (d1 (fun i => dc x f i 0%nat) (nth k idx 0%nat)).
    rewrite left_d1, (proj2 HN) by lra. apply Rmult_le_compat_l; [lra|]. apply N_dc; [lra|]. intros l Hl. apply HB; auto; lia.
  - assert (EL : forall i, (nth k idx 0 + i <= nth k (degrees s) 0)%nat -> along b k idx i = dc x f (nth k (degrees s) 0 - (nth k idx 0 + i))%nat (nth k idx 0 + i)%nat).
    { intros i Hi. unfold along. destruct (H (upd_list idx k (nth k idx 0 + i)%nat)) as (_ & X); [apply valid_upd; auto|].
      rewrite X, nth_upd_same by lia. apply dc_ext. intros l _. unfold f. rewrite upd_upd. reflexivity. }
    unfold w1. rewrite !EL by lia. rewrite Nat.add_0_r. set (p := nth k (degrees s) 0%nat) in *.
    change (vsub (dc x f (p - (nth k idx 0 + 1))%nat (nth k idx 0 + 1)%nat) (dc x f (p - nth k idx 0)%nat (nth k idx 0%nat))) with (d1 (fun i => dc x f (p - i)%nat i) (nth k idx 0%nat)).
    rewrite right_d1 by lia. cbn [ssub s1 SOps_R]. change R1 with 1. rewrite (proj2 HN) by lra.
    apply Rmult_le_compat_l; [lra|]. apply N_dc; [lra|]. intros l Hl. apply HB; auto; lia.
Qed.
Lemma split_same2 (s : spline V) x k a b D : wf s -> (k < length (degrees s))%nat -> 0 < x < 1 ->
  SplitAtPosition s x k = Ok [a; b] -> below w2 2 s k D -> below w2 2 a k (x * x * D) /\ below w2 2 b k ((1 - x) * (1 - x) * D).
Proof.
  intros Hw Hk Hx E HD. destruct (split_net s x k Hw Hk Hx) as (a' & b' & E' & Wa & Wb & Da & Db & H).
  rewrite E in E'. injection E' as <- <-.
  assert (HB : forall idx l, valid_index (degrees s) idx -> (l + 2 <= nth k (degrees s) 0)%nat -> N (d2 (fun i => net s (upd_list idx k i)) l) <= D).
  { intros idx l HV Hl. pose proof (idx_len _ _ HV) as HL. specialize (HD (upd_list idx k l)).
    unfold w2 in HD. rewrite !along_line, Nat.add_0_r in HD by lia. apply HD; [apply valid_upd; auto; lia|]. rewrite nth_upd_same by lia. exact Hl. }
  split; intros idx HV Hc; [rewrite Da in HV, Hc|rewrite Db in HV, Hc]; pose proof (idx_len _ _ HV) as HL; set (f := fun i => net s (upd_list idx k i)).
  - assert (EL : forall i, (nth k idx 0 + i <= nth k (degrees s) 0)%nat -> along a k idx i = dc x f (nth k idx 0 + i)%nat 0).
    { intros i Hi. unfold along. destruct (H (upd_list idx k (nth k idx 0 + i)%nat)) as (X & _); [apply valid_upd; auto|].
      rewrite X, nth_upd_same by lia. apply dc_ext. intros l _. unfold f. rewrite upd_upd. reflexivity. }
    unfold w2. rewrite !EL by lia. rewrite Nat.add_0_r.
    match goal with |- N ?u <= _ => change u with (d2 (fun i => dc x f i 0%nat) (nth k idx 0%nat)) end.
    rewrite left_d2. cbn [smul SOps_R]. rewrite (proj2 HN) by nra. apply Rmult_le_compat_l; [nra|]. apply N_dc; [lra|]. intros l Hl. apply HB; auto; lia.
  - assert (EL : forall i, (nth k idx 0 + i <= nth k (degrees s) 0)%nat -> along b k idx i = dc x f (nth k (degrees s) 0 - (nth k idx 0 + i))%nat (nth k idx 0 + i)%nat).
    { intros i Hi. unfold along. destruct (H (upd_list idx k (nth k idx 0 + i)%nat)) as (_ & X); [apply valid_upd; auto|].
      rewrite X, nth_upd_same by lia. apply dc_ext. intros l _. unfold f. rewrite upd_upd. reflexivity. }
    unfold w2. rewrite !EL by lia. rewrite Nat.add_0_r. set (p := nth k (degrees s) 0%nat) in *.
    match goal with |- N ?u <= _ => change u with (d2 (fun i => dc x f (p - i)%nat i) (nth k idx 0%nat)) end.
    rewrite right_d2 by lia. cbn [smul ssub s1 SOps_R]. change R1 with 1. rewrite (proj2 HN) by nra.
    apply Rmult_le_compat_l; [nra|]. apply N_dc; [lra|]. intros l Hl. apply HB; auto; lia.
Qed.
Lemma elevate_line (s e : spline V) k : wf s -> (k < length (degrees s))%nat ->
  (Z.of_nat (n_coeffs (upd_list (degrees s) k (nth k (degrees s) 0 + 1)%nat)) < 2 ^ 31)%Z ->
  OrderElevate (T := R) s k = Ok e -> forall idx i, valid_index (degrees e) idx -> (nth k idx 0 + i <= nth k (degrees s) 0 + 1)%nat ->
  along e k idx i = relev (nth k (degrees s) 0%nat) (fun l => net s (upd_list idx k l)) (nth k idx 0 + i)%nat.
Proof.
  intros Hw Hk Hz E idx i HV Hi. destruct (elevate_net s k Hw Hk Hz) as (e' & E' & We & De & H). rewrite E in E'. injection E' as <-.
  pose proof (idx_len _ _ HV) as HL. rewrite De, length_upd in HL.
  unfold along. rewrite H.
  2:{ apply valid_upd; auto; rewrite De; [rewrite nth_upd_same by auto; auto|now rewrite length_upd]. }
  rewrite nth_upd_same by lia. unfold relev. rewrite !upd_upd. reflexivity.
Qed.
Lemma elevate_same1 (s e : spline V) k D : wf s -> (k < length (degrees s))%nat ->
  (Z.of_nat (n_coeffs (upd_list (degrees s) k (nth k (degrees s) 0 + 1)%nat)) < 2 ^ 31)%Z ->
  OrderElevate (T := R) s k = Ok e -> below w1 1 s k D ->
  below w1 1 e k (INR (nth k (degrees s) 0%nat) / INR (nth k (degrees s) 0 + 1)%nat * D).
Proof.
  intros Hw Hk Hz E HD idx HV Hc. pose proof (elevate_line s e k Hw Hk Hz E idx) as EL.
  destruct (elevate_net s k Hw Hk Hz) as (e' & E' & We & De & H). rewrite E in E'. injection E' as <-.
  pose proof (idx_len _ _ HV) as HL. rewrite De, length_upd in HL.
  rewrite De, nth_upd_same in Hc by auto. set (f := fun l => net s (upd_list idx k l)) in *. set (p := nth k (degrees s) 0%nat) in *. set (i := nth k idx 0%nat) in *.
  unfold w1. rewrite !EL by (auto; lia). rewrite Nat.add_0_r.
  match goal with |- N ?u <= _ => change u with (d1 (relev p f) i) end.
  destruct p as [|q] eqn:Ep.
  - assert (i = 0%nat) as -> by lia. assert (EZ : d1 (relev 0 f) 0 = vsub (f 0%nat) (f 0%nat)) by reflexivity.
    rewrite EZ. rewrite vm_sub, vm_opp, N_0 by auto. simpl. lra.
  - replace (S q) with (q + 1)%nat by lia. rewrite relev_d1 by lia. rewrite !sofnat_INR. cbn [sdiv SOps_R].
    replace (q + 1 + 1)%nat with (q + 2)%nat by lia.
    assert (HP : 0 <= INR (q + 1) / INR (q + 2)) by (apply Rmult_le_pos; [apply pos_INR|left; apply Rinv_0_lt_compat, lt_0_INR; lia]).
    rewrite (proj2 HN) by auto. apply Rmult_le_compat_l; auto. apply N_relev; [lia|]. intros l Hl.
    specialize (HD (upd_list idx k l)). unfold w1 in HD. rewrite !along_line, Nat.add_0_r in HD by lia. apply HD.
    + eapply valid_shrink; [rewrite <- De; exact HV|auto|]. fold p. lia.
    + rewrite nth_upd_same by lia. fold p. lia.
Qed.
Lemma elevate_same2 (s e : spline V) k D : wf s -> (k < length (degrees s))%nat -> (1 <= nth k (degrees s) 0)%nat ->
  (Z.of_nat (n_coeffs (upd_list (degrees s) k (nth k (degrees s) 0 + 1)%nat)) < 2 ^ 31)%Z ->
  OrderElevate (T := R) s k = Ok e -> below w2 2 s k D ->
  below w2 2 e k (INR (nth k (degrees s) 0 - 1)%nat / INR (nth k (degrees s) 0 + 1)%nat * D).
Proof.
  intros Hw Hk Hp Hz E HD idx HV Hc. pose proof (elevate_line s e k Hw Hk Hz E idx) as EL.
  destruct (elevate_net s k Hw Hk Hz) as (e' & E' & We & De & H). rewrite E in E'. injection E' as <-.
  pose proof (idx_len _ _ HV) as HL. rewrite De, length_upd in HL.
  rewrite De, nth_upd_same in Hc by auto. set (f := fun l => net s (upd_list idx k l)) in *. set (p := nth k (degrees s) 0%nat) in *. set (i := nth k idx 0%nat) in *.
  unfold w2. rewrite !EL by (auto; lia). rewrite Nat.add_0_r.
  match goal with |- N ?u <= _ => change u with (d2 (relev p f) i) end.
  destruct (Nat.eq_dec p 1) as [E1|E1].
  - rewrite E1 in Hc |- *. assert (i = 0%nat) as -> by lia. cbn [Nat.sub INR]. unfold Rdiv. rewrite Rmult_0_l, Rmult_0_l.
    rewrite d2_d1, (d1_ext _ (fun j => vscale (sdiv (sofnat 1) (sofnat 2)) (d1 f 0%nat))).
    + unfold d1 at 1. rewrite vm_sub, vm_opp, N_0 by auto. lra.
    + change 1%nat with (0 + 1)%nat at 1. rewrite relev_d1 by lia. reflexivity.
    + change 1%nat with (0 + 1)%nat at 1. rewrite relev_d1 by lia. reflexivity.
  - destruct p as [|[|q]] eqn:Ep; try lia. replace (S (S q)) with (q + 2)%nat by lia. rewrite relev_d2 by lia. rewrite !sofnat_INR. cbn [sdiv SOps_R].
    replace (q + 2 - 1)%nat with (q + 1)%nat by lia. replace (q + 2 + 1)%nat with (q + 3)%nat by lia.
    assert (HP : 0 <= INR (q + 1) / INR (q + 3)) by (apply Rmult_le_pos; [apply pos_INR|left; apply Rinv_0_lt_compat, lt_0_INR; lia]).
    rewrite (proj2 HN) by auto. apply Rmult_le_compat_l; auto. apply N_relev; [lia|]. intros l Hl.
    specialize (HD (upd_list idx k l)). unfold w2 in HD. rewrite !along_line, Nat.add_0_r in HD by lia. apply HD.
    + eapply valid_shrink; [rewrite <- De; exact HV|auto|]. fold p. lia.
    + rewrite nth_upd_same by lia. fold p. lia.
Qed.
End Net.
