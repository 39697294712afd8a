(** How far the control points are from the spline. *)
From Coq Require Import Arith Lia List ZArith Bool Reals Lra Psatz.
From Verif Require Import Prelude Scalar Spec SpecSpline Sums Coord ModelBasis ModelPoint ModelNorm ModelSpline ProofIndex ProofBasis ProofEval
  ProofElevate ProofMul ProofSplit ProofDerivSpline ProofRoundOps ProofRoundEval ProofUnit3 ClaimsA ClaimsC ClaimsD ClaimsB ClaimsP SpecNet ProofNet ProofNet2 ProofNet3 ProofNet4.
Import ListNotations.
Local Open Scope R_scope.

Lemma c105_norms :
  seminorm (V := R) Rabs /\
  (forall d k, seminorm (fun p : point R d => Rabs (coord d p k))) /\
  (forall d (N : point R d -> R), (forall p, point_norm p = Ok (N p)) -> seminorm N).
Proof.
  split; [|split].
  - split; intros; cbn; [apply Rabs_triang|apply Rabs_mult].
  - intros d k. split; intros; [rewrite coord_add; apply Rabs_triang|rewrite coord_scale; apply Rabs_mult].
  - intros d N H. split; intros.
    + destruct (c65_triangle d a b) as (r & x & m & n & E & Em & En & Ex & L).
      destruct (c58_point_module R _ SField_R d a b 0%R) as (E' & _). rewrite E' in E. injection E as <-.
      rewrite H in Em, En, Ex. injection Em as <-. injection En as <-. injection Ex as <-. exact L.
    + destruct (c65_scale d a c) as (q & n & E & En & Eq).
      destruct (c58_point_module R _ SField_R d a a c) as (_ & _ & _ & E'). rewrite E' in E. injection E as <-.
      rewrite H in En, Eq. injection En as <-. injection Eq as Eq. exact Eq.
Qed.

Section Use.
Context {V : Type} {ov : VOps R V} {M : VMod R V}.
Context (N : V -> R) (HN : seminorm N).
Lemma evaluate_mbez (s : spline V) ts : wf s -> length ts = length (degrees s) -> Evaluate s ts = Ok (mbez (degrees s) ts (net s)).
Proof.
  intros Hw HT. rewrite (c09_evaluate R V _ _ _ _ s ts Hw HT). f_equal. rewrite mbez_bezier by auto. reflexivity.
Qed.
End Use.

Lemma c105_distance : forall (V : Type) (ov : VOps R V) (M : VMod R V) (N : V -> R) (s : spline V) (idx : list nat) (ts Ds : list R),
  seminorm N -> wf s -> valid_index (degrees s) idx -> node (degrees s) idx ts -> length Ds = length (degrees s) ->
  (forall k, (k < length (degrees s))%nat -> bends_below N s k (nth k Ds 0)) ->
  exists v, Evaluate s ts = Ok v /\ N (vsub v (net s idx)) <= allowance (degrees s) idx Ds /\
    (Forall (fun D => 0 <= D) Ds -> allowance (degrees s) idx Ds <= weighted_sum (degrees s) Ds / 8).
Proof.
  intros V ov M N s idx ts Ds HN Hw HV (HT & Hn) HDs HB. eexists. split; [apply evaluate_mbez; auto|].
  split; [|apply allowance_coarse; auto]. apply mbez_distance; auto. intros k mi Hk HM Hc.
  specialize (HB k Hk mi HM Hc). unfold along in HB. rewrite Nat.add_0_r in HB. unfold d2, d1.
  replace (nth k mi 0 + 1 + 1)%nat with (nth k mi 0 + 2)%nat by lia. exact HB.
Qed.

Lemma c105_spread : forall (V : Type) (ov : VOps R V) (M : VMod R V) (N : V -> R) (s : spline V) (Ds : list R),
  seminorm N -> wf s -> length Ds = length (degrees s) -> Forall (fun D => 0 <= D) Ds ->
  (forall k, (k < length (degrees s))%nat -> steps_below N s k (nth k Ds 0)) ->
  (forall idx idx', valid_index (degrees s) idx -> valid_index (degrees s) idx' ->
     N (vsub (net s idx) (net s idx')) <= weighted_sum (degrees s) Ds) /\
  (forall idx ts, valid_index (degrees s) idx -> length ts = length (degrees s) -> Forall (fun t => 0 <= t <= 1) ts ->
     exists v, Evaluate s ts = Ok v /\ N (vsub v (net s idx)) <= weighted_sum (degrees s) Ds).
Proof.
  intros V ov M N s Ds HN Hw HDs H0 HB.
  assert (X : forall idx idx', valid_index (degrees s) idx -> valid_index (degrees s) idx' -> N (vsub (net s idx) (net s idx')) <= weighted_sum (degrees s) Ds).
  { intros idx idx' HV HV'. apply net_spread; auto. intros k mi Hk HM Hc. specialize (HB k Hk mi HM Hc). unfold along in HB. rewrite Nat.add_0_r in HB. exact HB. }
  split; [exact X|]. intros idx ts HV HT Hbox. eexists. split; [apply evaluate_mbez; auto|]. apply mbez_near; auto.
Qed.

Lemma c105_split : forall (V : Type) (ov : VOps R V) (M : VMod R V) (N : V -> R) (s : spline V) (x : R) (k : nat),
  seminorm N -> wf s -> (k < length (degrees s))%nat -> 0 < x < 1 ->
  exists a b, SplitAtPosition s x k = Ok [a; b] /\ forall j D, (j < length (degrees s))%nat ->
    (steps_below N s j D -> steps_below N a j ((if (j =? k)%nat then x else 1) * D) /\ steps_below N b j ((if (j =? k)%nat then 1 - x else 1) * D)) /\
    (bends_below N s j D -> bends_below N a j ((if (j =? k)%nat then x * x else 1) * D) /\
       bends_below N b j ((if (j =? k)%nat then (1 - x) * (1 - x) else 1) * D)).
Proof.
  intros V ov M N s x k HN Hw Hk Hx. destruct (split_net s x k Hw Hk Hx) as (a & b & E & _). exists a, b. split; [auto|]. intros j D Hj.
  destruct (keeps_split N (seminorm_sublinear N HN) k s s 1 x a b (keeps_refl N k s Hw) Hk Hx E) as ((_ & _ & Ka) & (_ & _ & Kb)).
  rewrite Rmult_1_r in Ka, Kb. destruct (Ka j D Hj) as (A1 & A2). destruct (Kb j D Hj) as (B1 & B2). auto.
Qed.
Lemma c105_splits : forall (V : Type) (ov : VOps R V) (M : VMod R V) (N : V -> R) (s : spline V) (planes : list R) (k : nat),
  seminorm N -> wf s -> (k < length (degrees s))%nat ->
  let bounds := 0 :: planes ++ [1] in
  (forall i, (S i < length bounds)%nat -> nth i bounds 0 < nth (S i) bounds 0) ->
  exists parts, SplitAtPositions s planes k = Ok parts /\ length parts = S (length planes) /\
    forall i j D, (i <= length planes)%nat -> (j < length (degrees s))%nat ->
      exists q, nth_error parts i = Some q /\ let h := nth (S i) bounds 0 - nth i bounds 0 in
        (steps_below N s j D -> steps_below N q j ((if (j =? k)%nat then h else 1) * D)) /\
        (bends_below N s j D -> bends_below N q j ((if (j =? k)%nat then h * h else 1) * D)).
Proof.
  intros V ov M N s planes k HN Hw Hk bounds HB.
  destruct (c33_multi_split R V _ _ _ _ _ s planes k Hw Hk) as (parts & E & HL & _).
  { intros i Hi. apply slt_Rlt. apply HB. exact Hi. }
  exists parts. split; [exact E|]. split; [exact HL|]. intros i j D Hi Hj. exists (nth i parts s). split; [apply nth_error_nth'; lia|].
  destruct (keeps_planes N (seminorm_sublinear N HN) k s planes parts Hw Hk HB E) as (_ & HK). destruct (HK i Hi) as (_ & _ & X). exact (X j D Hj).
Qed.
Lemma c105_halved : forall (V : Type) (ov : VOps R V) (M : VMod R V) (N : V -> R) (ks : list nat) (s r : spline V),
  seminorm N -> wf s -> Forall (fun k => (k < length (degrees s))%nat) ks -> halved ks s r ->
  wf r /\ degrees r = degrees s /\ forall j D, (j < length (degrees s))%nat -> let n := count_occ Nat.eq_dec ks j in
    (steps_below N s j D -> steps_below N r j (D / 2 ^ n)) /\ (bends_below N s j D -> bends_below N r j (D / 4 ^ n)).
Proof. intros V ov M N ks s r HN Hw HK H. exact (halved_keeps N (seminorm_sublinear N HN) ks s r H Hw HK). Qed.
Lemma c105_elevate : forall (V : Type) (ov : VOps R V) (M : VMod R V) (N : V -> R) (s : spline V) (k : nat),
  seminorm N -> wf s -> (k < length (degrees s))%nat ->
  let p := nth k (degrees s) 0%nat in
  (Z.of_nat (n_coeffs (upd_list (degrees s) k (p + 1)%nat)) < 2 ^ 31)%Z ->
  exists e, OrderElevate (T := R) s k = Ok e /\ forall j D, (j < length (degrees s))%nat ->
    (steps_below N s j D -> steps_below N e j ((if (j =? k)%nat then INR p / INR (p + 1) else 1) * D)) /\
    (bends_below N s j D -> bends_below N e j ((if (j =? k)%nat then INR (p - 1) / INR (p + 1) else 1) * D)).
Proof.
  intros V ov M N s k HN Hw Hk p Hz. destruct (elevate_net s k Hw Hk Hz) as (e & E & _). exists e. split; [exact E|].
  exact (elevate_keeps N (seminorm_sublinear N HN) s e k Hw Hk Hz E).
Qed.
Lemma c105_elevated : forall (V : Type) (ov : VOps R V) (M : VMod R V) (N : V -> R) (k n : nat) (s : spline V),
  seminorm N -> wf s -> (k < length (degrees s))%nat ->
  let p := nth k (degrees s) 0%nat in
  (Z.of_nat (n_coeffs (upd_list (degrees s) k (p + n)%nat)) < 2 ^ 31)%Z ->
  (exists r, elevated k n s r) /\ forall r, elevated k n s r ->
    wf r /\ degrees r = upd_list (degrees s) k (p + n)%nat /\
    (forall xs, length xs = length (degrees s) -> Evaluate r xs = Evaluate s xs) /\
    forall j D, (j < length (degrees s))%nat ->
      (steps_below N s j D -> steps_below N r j ((if (j =? k)%nat then INR p / INR (p + n) else 1) * D)) /\
      (bends_below N s j D -> bends_below N r j ((if (j =? k)%nat then INR p * INR (p - 1) / (INR (p + n) * INR (p + n - 1)) else 1) * D)).
Proof.
  intros V ov M N k n s HN Hw Hk p Hz. split; [apply elevated_ok; auto|]. intros r H. exact (elevated_keeps N (seminorm_sublinear N HN) k n s r H Hw Hk Hz).
Qed.
(** One direction: the control points of the elevated spline come arbitrarily close to the spline. *)
Lemma c105_elevated_curve : forall (V : Type) (ov : VOps R V) (M : VMod R V) (N : V -> R) (n p : nat) (s r : spline V) (D : R),
  seminorm N -> wf s -> degrees s = [p] -> (2 <= p)%nat -> (Z.of_nat (p + n + 1) < 2 ^ 31)%Z -> elevated 0 n s r ->
  0 <= D -> bends_below N s 0 D -> forall i, (i <= p + n)%nat ->
  exists v, Evaluate s [INR i / INR (p + n)] = Ok v /\
    N (vsub v (nth i (control_points r) v0)) <= INR p * INR (p - 1) / (8 * INR (p + n - 1)) * D.
Proof.
  intros V ov M N n p s r D HN Hw Dg Hp Hz HE HD HB i Hi.
  destruct (c105_elevated V ov M N 0 n s HN Hw) as (_ & X).
  { rewrite Dg. cbn. lia. }
  { rewrite Dg. cbn [nth upd_list]. rewrite n_coeffs_cons. change (n_coeffs []) with 1%nat. lia. }
  destruct (X r HE) as (Wr & Dr & HV & HR). rewrite Dg in *. cbn [nth upd_list] in *. destruct (HR 0%nat D ltac:(cbn; lia)) as (_ & B). cbn [Nat.eqb] in B.
  specialize (B HB). set (E := INR p * INR (p - 1) / (INR (p + n) * INR (p + n - 1)) * D) in *.
  assert (P1 : 0 < INR (p + n)) by (apply lt_0_INR; lia). assert (P2 : 0 < INR (p + n - 1)) by (apply lt_0_INR; lia).
  destruct (c105_distance V ov M N r [i] [INR i / INR (p + n)] [E] HN Wr) as (v & Ev & L & C).
  - rewrite Dr. repeat constructor. exact Hi.
  - rewrite Dr. split; [reflexivity|]. intros k Hk. cbn in Hk. replace k with 0%nat by lia. cbn [nth]. field. lra.
  - rewrite Dr. reflexivity.
  - rewrite Dr. intros k Hk. cbn in Hk. replace k with 0%nat by lia. exact B.
  - rewrite HV in Ev by reflexivity. exists v. split; [exact Ev|].
    assert (E0 : 0 <= E).
    { unfold E. apply Rmult_le_pos; [|exact HD]. apply Rmult_le_pos; [apply Rmult_le_pos; apply pos_INR|]. left. apply Rinv_0_lt_compat. nra. }
    specialize (C (Forall_cons _ E0 (Forall_nil _))). unfold net in L. rewrite Dr in L, C. cbn [weighted_sum] in C. cbn [position] in L. rewrite ?Nat.mul_0_r, ?Nat.add_0_r in L.
    eapply Rle_trans; [exact L|]. eapply Rle_trans; [exact C|]. unfold E. apply Req_le. field. lra.
Qed.

(** Every control point is [net s idx] for a multi-index. *)
Lemma net_all {V} {ov : VOps R V} (s : spline V) i : (i < n_coeffs (degrees s))%nat -> exists idx, valid_index (degrees s) idx /\ position (degrees s) idx = i.
Proof.
  generalize (degrees s) as degs. intros degs. revert i. induction degs as [|p degs IH]; intros i Hi.
  - exists []. unfold n_coeffs in Hi. cbn in *. split; [constructor|lia].
  - rewrite n_coeffs_cons in Hi. destruct (IH (i / S p)%nat) as (idx & HV & E).
    { apply Nat.div_lt_upper_bound; lia. }
    exists ((i mod S p)%nat :: idx). split; [constructor; [pose proof (Nat.mod_upper_bound i (S p)); lia|exact HV]|].
    cbn [position]. rewrite E. pose proof (Nat.div_mod i (S p)). lia.
Qed.
Lemma node_exists degs : forall idx, valid_index degs idx -> exists ts, node degs idx ts /\ Forall (fun t => 0 <= t <= 1) ts.
Proof.
  induction degs as [|p degs IH]; intros idx HV; inversion HV as [|? i ? idx' Hi HV' E1 E2]; subst.
  - exists []. split; [split; [reflexivity|cbn; lia]|constructor].
  - destruct (IH idx' HV') as (ts & (HT & Hn) & HB).
    exists ((if (p =? 0)%nat then 0 else INR i / INR p) :: ts). split.
    + split; [cbn; lia|]. intros [|k] Hk; [|apply (Hn k); cbn in Hk; lia]. cbn [nth].
      destruct (Nat.eqb_spec p 0) as [->|Hp]; [replace i with 0%nat by lia; simpl; ring|]. field. apply not_0_INR. exact Hp.
    + constructor; [|exact HB]. destruct (Nat.eqb_spec p 0) as [->|Hp]; [lra|]. assert (0 < INR p) by (apply lt_0_INR; lia).
      pose proof (pos_INR i). pose proof (le_INR _ _ Hi). split; apply (Rmult_le_reg_r (INR p)); auto; unfold Rdiv; rewrite ?Rmult_assoc, ?Rinv_l by lra; lra.
Qed.

Lemma c105_corners : forall (d : nat) (s : spline (point R d)) (c : nat) (Ds : list R), wf s -> (c < d)%nat ->
  length Ds = length (degrees s) -> Forall (fun D => 0 <= D) Ds ->
  (forall k, (k < length (degrees s))%nat -> bends_below (fun p => Rabs (coord d p c)) s k (nth k Ds 0)) ->
  exists lo hi, MinimumCorner s = Ok lo /\ MaximumCorner s = Ok hi /\
    (forall ts v, length ts = length (degrees s) -> Forall (fun t => 0 <= t <= 1) ts -> Evaluate s ts = Ok v ->
       coord d lo c <= coord d v c <= coord d hi c) /\
    (exists ts v, Forall (fun t => 0 <= t <= 1) ts /\ Evaluate s ts = Ok v /\ coord d v c <= coord d lo c + weighted_sum (degrees s) Ds / 8) /\
    (exists ts v, Forall (fun t => 0 <= t <= 1) ts /\ Evaluate s ts = Ok v /\ coord d hi c - weighted_sum (degrees s) Ds / 8 <= coord d v c).
Proof.
  intros d s c Ds Hw Hc HDs H0 HB. destruct (c25_corners R _ _ _ d s Hw) as (lo & hi & El & Eh & HC). exists lo, hi. split; [auto|]. split; [auto|].
  destruct (HC c Hc) as (_ & (pl & Hpl & Ecl) & (ph & Hph & Ech)).
  assert (HN : seminorm (fun p : point R d => Rabs (coord d p c))) by exact (proj1 (proj2 c105_norms) d c).
  assert (X : forall p, In p (control_points s) -> exists ts v, Forall (fun t => 0 <= t <= 1) ts /\ Evaluate s ts = Ok v /\
    Rabs (coord d v c - coord d p c) <= weighted_sum (degrees s) Ds / 8).
  { intros p Hp. destruct (nth_in _ _ v0 Hp) as (m & Hm & <-). assert (L : length (control_points s) = n_coeffs (degrees s)) by apply Hw.
    destruct (net_all s m ltac:(lia)) as (idx & HV & <-). destruct (node_exists (degrees s) idx HV) as (ts & Hn & Hbox).
    destruct (c105_distance _ _ _ _ s idx ts Ds HN Hw HV Hn HDs HB) as (v & Ev & L1 & L2). exists ts, v. split; [auto|]. split; [auto|].
    rewrite coord_sub in L1. eapply Rle_trans; [exact L1|]. apply L2. exact H0. }
  split; [|split].
  - intros ts v HT Hbox Ev. destruct (c12_bounding_box R _ _ _ d s ts Hw HT) as (v' & lo' & hi' & Ev' & El' & Eh' & H).
    { eapply Forall_impl; [|exact Hbox]. intros t Ht. split; apply sle_Rle; cbn; change R0 with 0; change R1 with 1; apply Ht. }
    rewrite Ev in Ev'. injection Ev' as <-. rewrite El in El'. injection El' as <-. rewrite Eh in Eh'. injection Eh' as <-.
    destruct (H c Hc) as (A & B). split; apply sle_Rle; auto.
  - destruct (X pl Hpl) as (ts & v & Hbox & Ev & L). exists ts, v. split; [auto|]. split; [auto|]. rewrite <- Ecl.
    unfold Rabs in L. destruct (Rcase_abs _) in L; lra.
  - destruct (X ph Hph) as (ts & v & Hbox & Ev & L). exists ts, v. split; [auto|]. split; [auto|]. rewrite <- Ech.
    unfold Rabs in L. destruct (Rcase_abs _) in L; lra.
Qed.

Lemma halved_values {V} {ov : VOps R V} {M : VMod R V} ks (s r : spline V) : halved ks s r -> wf s -> Forall (fun k => (k < length (degrees s))%nat) ks ->
  forall ts, length ts = length (degrees s) -> Forall (fun t => 0 <= t <= 1) ts ->
  exists ts', length ts' = length (degrees s) /\ Forall (fun t => 0 <= t <= 1) ts' /\ Evaluate r ts = Evaluate s ts'.
Proof.
  induction 1 as [s|k ks s a b q r E Hq _ IH]; intros Hw HK ts HT Hbox; [eauto|].
  inversion HK as [|? ? Hk HK']; subst.
  destruct (piece_first s k (1 / 2) Hw Hk) as (a' & b' & E' & PA & PB); [apply slt_Rlt; cbn; change R0 with 0; lra|apply slt_Rlt; cbn; change R1 with 1; lra|].
  rewrite E in E'. injection E' as <- <-.
  assert (X : wf q /\ degrees q = degrees s).
  { destruct Hq as [-> | ->]; [destruct PA as (A & B & _)|destruct PB as (A & B & _)]; auto. }
  destruct X as (Wq & Dq). destruct (IH Wq ltac:(rewrite Dq; exact HK') ts ltac:(congruence) Hbox) as (ts' & HT' & Hbox' & Ev). rewrite Dq in HT'.
  assert (Hn : 0 <= nth k ts' 0 <= 1) by (apply (proj1 (Forall_forall _ _) Hbox'), nth_In; lia).
  assert (Hu : forall y, 0 <= y <= 1 -> Forall (fun t => 0 <= t <= 1) (upd_list ts' k y)).
  { intros y Hy. apply Forall_nth. intros i d0 Hi. rewrite length_upd in Hi. rewrite (nth_indep _ d0 0) by (rewrite length_upd; exact Hi).
    destruct (Nat.eq_dec i k) as [->|Hne]; [rewrite nth_upd_same by auto; exact Hy|].
    rewrite nth_upd_other by auto. apply (proj1 (Forall_forall _ _) Hbox'), nth_In. exact Hi. }
  destruct Hq as [-> | ->].
  - rewrite (piece_eval s a k _ _ Hw PA ts' HT') in Ev. eexists. split; [|split; [|exact Ev]]; [now rewrite length_upd|].
    apply Hu. cbn. change R0 with 0. change R1 with 1. lra.
  - rewrite (piece_eval s b k _ _ Hw PB ts' HT') in Ev. eexists. split; [|split; [|exact Ev]]; [now rewrite length_upd|].
    apply Hu. cbn. change R0 with 0. change R1 with 1. lra.
Qed.
Lemma c105_halved_distance : forall (V : Type) (ov : VOps R V) (M : VMod R V) (N : V -> R) (ks : list nat) (s r : spline V) (Ds : list R),
  seminorm N -> wf s -> Forall (fun k => (k < length (degrees s))%nat) ks -> halved ks s r ->
  length Ds = length (degrees s) -> Forall (fun D => 0 <= D) Ds ->
  (forall k, (k < length (degrees s))%nat -> bends_below N s k (nth k Ds 0)) ->
  forall p, In p (control_points r) -> exists ts v, Forall (fun t => 0 <= t <= 1) ts /\ Evaluate s ts = Ok v /\
    N (vsub v p) <= weighted_sum (degrees s) (map (fun k => nth k Ds 0 / 4 ^ count_occ Nat.eq_dec ks k) (seq 0 (length Ds))) / 8.
Proof.
  intros V ov M N ks s r Ds HN Hw HK HH HDs H0 HB p Hp.
  destruct (c105_halved V ov M N ks s r HN Hw HK HH) as (Wr & Dr & HR).
  destruct (nth_in _ _ v0 Hp) as (m & Hm & <-). assert (L : length (control_points r) = n_coeffs (degrees r)) by apply Wr.
  destruct (net_all r m ltac:(lia)) as (idx & HV & <-). destruct (node_exists (degrees r) idx HV) as (ts & Hn & Hbox).
  set (Es := map _ _). assert (HEs : length Es = length (degrees s)) by (unfold Es; rewrite map_length, seq_length; exact HDs).
  assert (EN : forall k, (k < length (degrees s))%nat -> nth k Es 0 = nth k Ds 0 / 4 ^ count_occ Nat.eq_dec ks k).
  { intros k Hk. unfold Es. rewrite (nth_indep _ 0 ((fun k => nth k Ds 0 / 4 ^ count_occ Nat.eq_dec ks k) 0%nat)) by (rewrite map_length, seq_length; lia).
    rewrite (map_nth (fun k => nth k Ds 0 / 4 ^ count_occ Nat.eq_dec ks k)), seq_nth by lia. reflexivity. }
  destruct (c105_distance _ _ _ _ r idx ts Es HN Wr HV Hn) as (v & Ev & L1 & L2).
  - congruence.
  - rewrite Dr. intros k Hk. rewrite EN by auto. apply (HR k _ Hk). auto.
  - destruct (halved_values ks s r HH Hw HK ts) as (ts' & HT' & Hbox' & Ev'); [rewrite (proj1 Hn); congruence|exact Hbox|].
    exists ts', v. split; [auto|]. split; [congruence|]. eapply Rle_trans; [exact L1|]. rewrite <- Dr. apply L2.
    apply Forall_nth. intros i d0 Hi. rewrite (nth_indep _ d0 0) by auto. rewrite EN by lia.
    apply Rmult_le_pos; [apply (proj1 (Forall_forall _ _) H0), nth_In; lia|]. left. apply Rinv_0_lt_compat, pow_lt. lra.
Qed.
