(** Evaluation, elevation, subdivision and the unit cube in rounded arithmetic. *)
From Coq Require Import Arith Lia List ZArith NArith Bool Reals Lra Psatz.
From Verif Require Import Prelude Scalar Spec SpecSpline Sums Order Coord ModelBasis ModelSpline ModelRational ModelScalar SpecRational
  ModelRound SpecRound ProofIndex ProofBasis ProofEval ProofElevate ProofSplit ProofCasteljau ProofRaw ProofCube ProofRational ProofRational3 ClaimsB
  ProofRound ClaimsU ClaimsRoundOps ProofUnit ProofUnit2.
Import ListNotations.
Local Open Scope R_scope.

(** The corner of a rational spline, for any arithmetic in which no weight compares equal to zero. *)
Lemma R_Corner_gen {T} {o : SOps T} {d} pick (r : rspline T (point T d)) : rwf r ->
  (forall i, (i < n_coeffs (rdegrees r))%nat -> seqb (rw r i) s0 = false) ->
  exists m, R_Corner pick r = Ok m /\ forall k, (k < d)%nat ->
    coord d m k = pickn pick (fun i => coord d (rcp r i) k) (n_coeffs (rdegrees r) - 1).
Proof.
  intros Hr Hz. pose proof Hr as (Hu & Hw & Hd). unfold R_Corner.
  pose proof Hu as (_ & Hn & _ & Hc). pose proof Hw as (_ & _ & _ & Hcw).
  rewrite Hn. fold (rdegrees r) in *. pose proof (n_coeffs_pos (rdegrees r)) as Hp.
  rewrite (proj2 (Nat.eqb_neq _ 0)) by lia.
  rewrite LocalToGlobal_ok by auto. cbn [bind]. rewrite Hd.
  rewrite (R_ControlPoint_ok r) by (auto; apply index_of_valid). rewrite index_of_0, Hz by lia. cbn [bind].
  edestruct (for_up_inv (fun n m => forall k, (k < d)%nat ->
    coord d m k = pickn pick (fun i => coord d (rcp r i) k) (n - 1))) as (m & E & H).
  3:{ exists m. split; [exact E|]. intros k Hk. rewrite H by auto. f_equal. lia. }
  - intros k Hk. reflexivity.
  - cbv beta. intros n m Hn' H.
    rewrite (get_ok v0) by lia. cbn [bind]. rewrite (get_ok s0) by (rewrite Hcw, Hd; lia). cbn [bind].
    assert (E0 : vdiv (nth n (control_points (weighted_spline r)) v0) (nth n (control_points (weight_function r)) s0) = Ok (rcp r n)).
    { unfold vdiv, divS. specialize (Hz n ltac:(lia)). unfold rw in Hz. rewrite Hz. reflexivity. }
    rewrite E0. cbn [bind].
    edestruct (point_loop d (fun k a => do b <- pget d (rcp r n) k; Ok (pick a b))
      (fun k => pick (coord d m k) (coord d (rcp r n) k)) m) as (m' & E & Hm').
    { intros k Hk. rewrite pget_ok by auto. reflexivity. }
    exists m'. split.
    + rewrite <- E. apply for_up_ext. intros k a _.
      destruct (pget d a k); auto. cbn [bind]. destruct (pget d (rcp r n) k); auto.
    + intros k Hk. rewrite Hm', H by auto. replace (S n - 1)%nat with (S (n - 1)) by lia. cbn [pickn].
      replace (S (n - 1)) with n by lia. reflexivity.
Qed.

Lemma sle_Rle a b : sle a b <-> a <= b.
Proof. unfold sle. cbn [sltb SOps_R]. destruct (Rlt_dec b a); split; intros; try lra; try discriminate; auto. Qed.

Section Unit.
Context (p : nat) (rnd : R -> R) (Hp : (0 < p)%nat) (HR : nearest p rnd).
Notation ornd := (SOps_rnd rnd).
Notation Vr d := (VOps_point R d (o := ornd)).
Notation Vs := (VOps_scalar R (o := ornd)).

Definition unit_point {d} (a : point R d) : Prop := forall k, (k < d)%nat -> 0 <= coord d a k <= 1.
(** A weighted point below its positive weight. *)
Definition under {d} (a : point R d) (w : R) : Prop := 0 < w /\ forall k, (k < d)%nat -> 0 <= coord d a k <= w.
Definition unit_num (a : R) : Prop := 0 <= a <= 1.
Definition under_num (a w : R) : Prop := 0 < w /\ 0 <= a <= w.

Lemma rnd_pos x : 0 < x -> 0 < rnd x.
Proof using Hp HR.
  intros H. pose proof (nearest_error p rnd Hp HR x) as B. pose proof (unit_lt_1 p Hp). rewrite (Rabs_right x) in B by lra.
  unfold Rabs in B. destruct (Rcase_abs _); [|lra]. assert (/ 2 ^ p * x < 1 * x) by (apply Rmult_lt_compat_r; lra). lra.
Qed.
Lemma blend_pos x a b : 0 <= x <= 1 -> 0 < a -> 0 < b -> 0 < rnd (rnd (rnd (1 - x) * a) + rnd (x * b)).
Proof using Hp HR.
  intros Hx Ha Hb. apply rnd_pos. assert (0 <= rnd (x * b)) by (apply (rnd_nonneg p rnd Hp HR); nra).
  assert (0 <= rnd (1 - x)) by (apply (rnd_nonneg p rnd Hp HR); lra).
  assert (0 <= rnd (rnd (1 - x) * a)) by (apply (rnd_nonneg p rnd Hp HR); nra).
  destruct (Req_dec x 1) as [->|N].
  - assert (0 < rnd (1 * b)) by (apply rnd_pos; lra). lra.
  - assert (0 < rnd (1 - x)) by (apply rnd_pos; lra). assert (0 < rnd (rnd (1 - x) * a)) by (apply rnd_pos; nra). lra.
Qed.

Lemma keeps_unit d x : representable p x -> 0 <= x <= 1 ->
  keeps (o := ornd) (ov := Vr d) (ow := Vr d) (fun a _ => unit_point a) x.
Proof using Hp HR.
  intros Rx Hx a b _ _ Ha Hb k Hk. rewrite coord_add_rnd, !coord_scale_rnd by auto. cbn [SOps_rnd ssub s1].
  apply (blend_unit p rnd Hp HR); auto.
Qed.
Lemma keeps_unit_num x : representable p x -> 0 <= x <= 1 -> keeps (o := ornd) (ov := Vs) (ow := Vs) (fun a _ => unit_num a) x.
Proof using Hp HR. intros Rx Hx a b _ _ Ha Hb. apply (blend_unit p rnd Hp HR); auto. Qed.
Lemma blend_under x a b w w' : 0 <= x <= 1 -> 0 <= a <= w -> 0 <= b <= w' ->
  0 <= rnd (rnd (rnd (1 - x) * a) + rnd (x * b)) <= rnd (rnd (rnd (1 - x) * w) + rnd (x * w')).
Proof using Hp HR.
  intros Hx Ha Hb. split; [|apply (blend_mono p rnd Hp HR); lra].
  assert (0 <= rnd (1 - x)) by (apply (rnd_nonneg p rnd Hp HR); lra).
  apply (rnd_nonneg p rnd Hp HR), Rplus_le_le_0_compat; apply (rnd_nonneg p rnd Hp HR); nra.
Qed.
Lemma keeps_under d x : 0 <= x <= 1 -> keeps (o := ornd) (ov := Vr d) (ow := Vs) under x.
Proof using Hp HR.
  intros Hx a b w w' (Pw & Ha) (Pw' & Hb). split; [apply blend_pos; auto|].
  intros k Hk. rewrite coord_add_rnd, !coord_scale_rnd by auto. apply blend_under; auto.
Qed.
Lemma keeps_under_num x : 0 <= x <= 1 -> keeps (o := ornd) (ov := Vs) (ow := Vs) under_num x.
Proof using Hp HR.
  intros Hx a b w w' (Pw & Ha) (Pw' & Hb). split; [apply blend_pos; auto|apply blend_under; auto].
Qed.

(** The factors of degree elevation. *)
Lemma sofnat_pos n : 0 < sofnat (H := ornd) (n + 1).
Proof using Hp HR.
  unfold sofnat. cbn [sofN SOps_rnd]. apply rnd_pos. apply (IZR_lt 0). lia.
Qed.
Lemma elev_factor q i : (i <= q)%nat ->
  let f := smul (SOps := ornd) (sofnat (H := ornd) i) (sdiv (SOps := ornd) (s1 (SOps := ornd)) (sofnat (H := ornd) (q + 1))) in
  representable p f /\ 0 <= f <= 1.
Proof using Hp HR.
  intros Hi f. pose proof (sofnat_pos q) as Hq.
  assert (Hi' : 0 <= sofnat (H := ornd) i <= sofnat (H := ornd) (q + 1)).
  { unfold sofnat. cbn [sofN SOps_rnd]. split; [apply (rnd_nonneg p rnd Hp HR), (IZR_le 0); lia|].
    apply (rnd_mono p rnd Hp HR), IZR_le. lia. }
  unfold f. cbn [smul sdiv s1 SOps_rnd]. set (w := sofnat (H := ornd) (q + 1)) in *. set (a := sofnat (H := ornd) i) in *.
  assert (0 < rnd (1 / w)) by (apply rnd_pos, Rdiv_lt_0_compat; lra).
  split; [apply HR|]. split; [apply (rnd_nonneg p rnd Hp HR), Rmult_le_pos; lra|].
  eapply Rle_trans; [|apply (inverse p rnd Hp HR w Hq)]. apply (rnd_mono p rnd Hp HR). apply Rmult_le_compat_r; lra.
Qed.
Lemma elev_nz q : seqb (SOps := ornd) (sofnat (H := ornd) (q + 1)) (s0 (SOps := ornd)) = false.
Proof using Hp HR.
  pose proof (sofnat_pos q). cbn [seqb s0 SOps_rnd]. destruct (Req_EM_T _ 0); auto. lra.
Qed.

(** The unit cube check is about the exact coordinates. *)
Lemma fits_unit {d} (s : spline (point R d)) : wf s ->
  exists b, FitsIntoUnitCube (o := ornd) s = Ok b /\
    (b = true <-> forall i, (i < length (control_points s))%nat -> unit_point (nth i (control_points s) v0)).
Proof using.
  intros Hw. change (FitsIntoUnitCube (o := ornd) s) with (FitsIntoUnitCube s).
  destruct (FitsIntoUnitCube_ok s Hw) as (b & E & H). exists b. split; auto. rewrite H.
  split; intros A i; [intros Hi k Hk|intros k Hi Hk]; specialize (A i).
  - destruct (A k Hi Hk) as (B & C). apply sle_Rle in B, C. unfold cpc in *. cbn in B, C. change R0 with 0 in *. change R1 with 1 in *. auto.
  - destruct (A Hi k Hk) as (B & C). split; apply sle_Rle; auto.
Qed.
End Unit.
