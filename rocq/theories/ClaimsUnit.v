(** C104: the unit cube in rounded arithmetic. *)
From Coq Require Import Arith Lia List ZArith NArith Bool Reals Lra Psatz.
From Verif Require Import Prelude Scalar Spec SpecSpline Sums Order Coord ModelBasis ModelSpline ModelRational ModelScalar SpecRational
  ModelRound ModelRoundRat SpecRound ProofIndex ProofBasis ProofEval ProofElevate ProofSplit ProofCasteljau ProofRaw ProofCube ProofRational ProofRational3 ProofScalar ClaimsB
  ClaimsN ProofRound ProofRoundEval ClaimsU ClaimsRoundOps ProofSeam ModelUnit SpecUnit ProofUnit ProofUnit2 ProofUnit3.
Import ListNotations.
Local Open Scope R_scope.

Lemma wf_len {V} (s : spline V) : wf s -> length (control_points s) = n_coeffs (degrees s).
Proof. intros H; apply H. Qed.

(** ** The check *)
Lemma c104_fits : forall rnd d (s : spline (point R d)), wf s ->
  exists b, FitsIntoUnitCube_rnd rnd s = Ok b /\ (b = true <-> in_cube s).
Proof.
  intros rnd d s Hw. destruct (fits_unit rnd s Hw) as (b & E & H). exists b. split; [exact E|]. rewrite H.
  unfold in_cube, unit_point. rewrite (wf_len s Hw). split; intros A i; [intros k Hi Hk|intros Hi k Hk]; apply A; auto.
Qed.
Lemma fits_s rnd (s : spline R) : wf s -> exists b, FitsIntoUnitCube_s (o := SOps_rnd rnd) s = Ok b /\ (b = true <-> in_interval s).
Proof.
  intros Hw. rewrite <- lift_fits.
  destruct (fits_unit rnd (lift s) (wf_lift s Hw)) as (b & E & H). exists b. split; [exact E|]. rewrite H.
  unfold in_interval, unit_point. cbn [lift control_points]. rewrite map_length, (wf_len s Hw).
  assert (N : forall i k, (k < 1)%nat -> coord 1 (nth i (map emb (control_points s)) v0) k = nth i (control_points s) 0).
  { intros i k Hk. replace k with 0%nat by lia. change (v0 : point R 1) with (emb 0). rewrite map_nth. apply coord_emb. }
  split; intros A i; [intros Hi|intros Hi k Hk]; specialize (A i Hi).
  - specialize (A 0%nat ltac:(lia)). rewrite N in A by lia. auto.
  - rewrite N by auto. auto.
Qed.

(** ** FitIntoUnitCube *)
Section Fit.
Context (p : nat) (rnd : R -> R) (Hp : (0 < p)%nat) (HR : nearest p rnd).
Let u := / 2 ^ p.
Lemma fit_number c lo hi : lo < hi -> lo <= c <= hi ->
  let t := rnd (rnd (- lo + c) * rnd (1 / rnd (hi - lo))) in
  0 <= t <= 1 /\ (c = lo -> t = 0) /\
  Rabs (t - (c - lo) / (hi - lo)) <= ((1 + u) ^ 3 / (1 - u) - 1) * ((c - lo) / (hi - lo)).
Proof using Hp HR.
  intros HL HC t.
  assert (HW : 0 < rnd (hi - lo)) by (apply (rnd_pos p); auto; lra).
  assert (HI : 0 < rnd (1 / rnd (hi - lo))) by (apply (rnd_pos p); auto; apply Rdiv_lt_0_compat; lra).
  split; [split|split].
  - apply (rnd_nonneg p rnd Hp HR), Rmult_le_pos; [|lra]. apply (rnd_nonneg p rnd Hp HR). lra.
  - eapply Rle_trans; [|apply (inverse p rnd Hp HR _ HW)]. apply (rnd_mono p rnd Hp HR), Rmult_le_compat_r; [lra|].
    apply (rnd_mono p rnd Hp HR). lra.
  - intros ->. unfold t. rewrite Rplus_opp_l, (rnd_0' p rnd Hp HR), Rmult_0_l. apply (rnd_0' p rnd Hp HR).
  - assert (Hu := unit_pos p). assert (Hu1 := unit_lt_1 p Hp). pose proof (nearest_error p rnd Hp HR) as Hr. fold u in Hu, Hu1, Hr.
    assert (P : 0 <= / (hi - lo)) by (left; apply Rinv_0_lt_compat; lra).
    assert (E1 : Er (1 * (1 + u)) (rnd (- lo + c)) (c - lo) (c - lo)).
    { apply (Er_rnd rnd u Hu Hr). replace (- lo + c) with (c - lo) by ring. apply Er_exact_pos. lra. }
    assert (E2 : Er (/ (1 - u) * (1 + u)) (rnd (1 / rnd (hi - lo))) (/ (hi - lo)) (/ (hi - lo))).
    { apply (Er_rnd rnd u Hu Hr). unfold Rdiv. rewrite Rmult_1_l. rewrite <- (pow_1 (1 - u)).
      apply (Sr_inv u Hu Hu1); [lra|]. apply (Sr_rnd rnd u Hu Hr Hu1); [lra|apply Sr_exact]. }
    assert (G : 1 <= / (1 - u)) by (replace 1 with (/ 1) at 1 by field; apply Rinv_le_contravar; lra).
    assert (G1 : 1 <= 1 * (1 + u)) by lra. assert (G2 : 1 <= / (1 - u) * (1 + u)).
    { apply Rle_trans with (1 * 1); [lra|]. apply Rmult_le_compat; lra. }
    assert (E3 := Er_rnd rnd u Hu Hr _ _ _ _ (Er_mul _ _ _ _ _ _ _ _ G1 G2 E1 E2)).
    destruct E3 as (E3 & _). unfold Rdiv at 1 3. fold t in E3. eapply Rle_trans; [exact E3|]. right. unfold Rdiv. ring.
Qed.
End Fit.
Lemma c104_fit : forall p rnd d (s : spline (point R d)), (0 < p)%nat -> nearest p rnd -> wf s -> numbers p s -> varies s ->
  exists r, FitIntoUnitCube_rnd rnd s = Ok r /\ wf r /\ degrees r = degrees s /\ in_cube r /\ FitsIntoUnitCube_rnd rnd r = Ok true /\
    forall k lo hi, (k < d)%nat -> range (fun i => coord d (nth i (control_points s) v0) k) (n_coeffs (degrees s)) lo hi ->
    lo < hi /\ forall i, (i < n_coeffs (degrees s))%nat ->
      let c := coord d (nth i (control_points s) v0) k in let c' := coord d (nth i (control_points r) v0) k in
      (c = lo -> c' = 0) /\
      Rabs (c' - (c - lo) / (hi - lo)) <= ((1 + / 2 ^ p) ^ 3 / (1 - / 2 ^ p) - 1) * ((c - lo) / (hi - lo)).
Proof.
  intros p rnd d s Hp HR Hw HN HV. unfold FitIntoUnitCube_rnd, FitIntoUnitCube.
  change (MaximumCorner (o := SOps_rnd rnd) s) with (MaximumCorner s). change (MinimumCorner (o := SOps_rnd rnd) s) with (MinimumCorner s).
  destruct (corner_max s Hw) as (mx & -> & Hx). destruct (corner_min s Hw) as (mn & -> & Hm). cbn [bind].
  rewrite (wf_len s Hw) in Hx, Hm. unfold cpc in Hx, Hm.
  assert (HB : forall k, (k < d)%nat -> (forall i, (i < n_coeffs (degrees s))%nat ->
    coord d mn k <= coord d (nth i (control_points s) v0) k <= coord d mx k) /\ coord d mn k < coord d mx k).
  { intros k Hk. destruct (Hx k Hk) as (X & _), (Hm k Hk) as (Y & _).
    assert (Z : forall i, (i < n_coeffs (degrees s))%nat -> coord d mn k <= coord d (nth i (control_points s) v0) k <= coord d mx k).
    { intros i Hi. split; apply sle_Rle; auto. }
    split; auto. destruct (HV k Hk) as (i & j & Hi & Hj & Hij). pose proof (Z i Hi). pose proof (Z j Hj). lra. }
  destruct (point_loop (o := SOps_rnd rnd) d (fun _ x => divS (H := SOps_rnd rnd) (s1 (SOps := SOps_rnd rnd)) x)
    (fun k => rnd (1 / coord d (vsub (VOps := Vr rnd d) mx mn) k)) (vsub (VOps := Vr rnd d) mx mn)) as (sc & E & Hsc).
  { intros k Hk. unfold divS. cbn [seqb s0 SOps_rnd]. destruct (HB k Hk) as (_ & L).
    assert (0 < rnd (coord d mx k - coord d mn k)) by (apply (rnd_pos p); auto; lra).
    destruct (Req_EM_T _ 0) as [E0|_]; [|reflexivity].
    change (coord (o := SOps_rnd rnd) d (vsub (VOps := Vr rnd d) mx mn) k) with (coord d (vsub (VOps := Vr rnd d) mx mn) k) in E0.
    rewrite coord_sub_rnd in E0 by auto. lra. }
  rewrite E. cbn [bind].
  destruct (TransposeAndScale_ok (o := SOps_rnd rnd) s (vopp (VOps := Vr rnd d) mn) sc Hw) as (r & E2 & Wr & Dr & Lr & H).
  rewrite (wf_len s Hw) in H.
  assert (HC : forall i k, (i < n_coeffs (degrees s))%nat -> (k < d)%nat -> coord d (nth i (control_points r) v0) k =
    rnd (rnd (- coord d mn k + coord d (nth i (control_points s) v0) k) * rnd (1 / rnd (coord d mx k - coord d mn k)))).
  { intros i k Hi Hk. specialize (H i k Hi Hk). unfold cpc in H. cbn [smul sadd SOps_rnd] in H.
    change (@coord R (SOps_rnd rnd)) with (@coord R SOps_R) in H. change (v0 (VOps := Vr rnd d)) with (v0 : point R d) in H.
    etransitivity; [exact H|]. f_equal. f_equal.
    - f_equal. f_equal. etransitivity; [apply (coord_pmap (o := SOps_R) d (fun x => rnd (x * - (1))) mn k Hk)|].
      replace (coord d mn k * - (1)) with (- coord d mn k) by ring. apply (rnd_id p rnd Hp HR).
      destruct (Hm k Hk) as (_ & j & Hj & Ej). rewrite <- Ej. destruct (HN j k Hj Hk) as (m & e & Hme & ->).
      exists (- m)%Z, e. split; [rewrite Z.abs_opp; auto|]. rewrite opp_IZR. ring.
    - specialize (Hsc k Hk). change (@coord R (SOps_rnd rnd)) with (@coord R SOps_R) in Hsc. rewrite coord_sub_rnd in Hsc by auto. exact Hsc. }
  assert (IC : in_cube r).
  { intros i k Hi Hk. rewrite Dr in Hi. rewrite HC by auto. destruct (HB k Hk) as (B & L).
    apply (fit_number p rnd Hp HR (coord d (nth i (control_points s) v0) k)); auto. }
  exists r. split; [exact E2|]. split; [auto|]. split; [auto|]. split; [auto|]. split.
  { destruct (c104_fits rnd d r Wr) as (b & Eb & Hb). rewrite Eb. f_equal. apply Hb. auto. }
  intros k lo hi Hk HRa. unfold range in HRa. destruct HRa as (Ra & (a & Ha & Ea) & (b & Hb & Eb)).
  destruct (HB k Hk) as (B & L). destruct (Hx k Hk) as (_ & x & Hxi & Ex), (Hm k Hk) as (_ & y & Hyi & Ey).
  assert (lo = coord d mn k). { pose proof (Ra y Hyi). pose proof (B a Ha). rewrite Ey in *. rewrite Ea in *. lra. }
  assert (hi = coord d mx k). { pose proof (Ra x Hxi). pose proof (B b Hb). rewrite Ex in *. rewrite Eb in *. lra. }
  rewrite H0, H1. split; [exact L|]. intros i Hi. rewrite HC by auto.
  apply (fit_number p rnd Hp HR (coord d (nth i (control_points s) v0) k)); auto.
Qed.

(** A direction in which the spline is flat. *)
Lemma c104_fit_flat : forall p rnd d (s : spline (point R d)) k, (0 < p)%nat -> nearest p rnd -> wf s -> (k < d)%nat ->
  (forall i j, (i < n_coeffs (degrees s))%nat -> (j < n_coeffs (degrees s))%nat ->
     coord d (nth i (control_points s) v0) k = coord d (nth j (control_points s) v0) k) ->
  FitIntoUnitCube_rnd rnd s = NonFinite.
Proof.
  intros p rnd d s k Hp HR Hw Hk HF. unfold FitIntoUnitCube_rnd, FitIntoUnitCube.
  change (MaximumCorner (o := SOps_rnd rnd) s) with (MaximumCorner s). change (MinimumCorner (o := SOps_rnd rnd) s) with (MinimumCorner s).
  destruct (corner_max s Hw) as (mx & -> & Hx). destruct (corner_min s Hw) as (mn & -> & Hm). cbn [bind].
  rewrite (wf_len s Hw) in Hx, Hm. unfold cpc in Hx, Hm.
  assert (Z : coord d (vsub (VOps := Vr rnd d) mx mn) k = 0).
  { rewrite coord_sub_rnd by auto. destruct (Hx k Hk) as (_ & i & Hi & Ei), (Hm k Hk) as (_ & j & Hj & Ej).
    rewrite <- Ei, <- Ej, (HF i j Hi Hj), Rminus_eq_0. apply (rnd_0' p rnd Hp HR). }
  assert (BL : forall n lo (q : point R d), (lo <= k < lo + n)%nat -> (lo + n = d)%nat -> coord d q k = 0 ->
    for_up lo n (fun i_dim sc => do x <- pget d sc i_dim; do y <- divS (H := SOps_rnd rnd) (s1 (SOps := SOps_rnd rnd)) x; pset d sc i_dim y) q = NonFinite).
  { induction n; intros lo q Hlo Hd Hq; [lia|]. cbn [for_up]. rewrite (pget_ok (o := SOps_R)) by lia. cbn [bind].
    destruct (Nat.eq_dec lo k) as [->|Hne].
    - unfold divS. cbn [seqb s0 SOps_rnd]. rewrite Hq. destruct (Req_EM_T 0 0); [reflexivity|lra].
    - unfold divS at 1. destruct (seqb _ _); [reflexivity|]. cbn [bind].
      destruct (pset_ok d q lo (sdiv (SOps := SOps_rnd rnd) (s1 (SOps := SOps_rnd rnd)) (coord d q lo))) as (q' & E & _); [lia|].
      rewrite E. cbn [bind]. apply IHn; try lia. rewrite (coord_pset _ _ _ _ _ _ E) by lia.
      rewrite (proj2 (Nat.eqb_neq k lo)) by lia. auto. }
  rewrite (BL d 0%nat) by (auto; lia). reflexivity.
Qed.

(** ** Evaluation, elevation, subdivision *)

Lemma cube_rel {d} (s : spline (point R d)) : wf s -> in_cube s <-> rel_cps (ov := Vr (fun x => x) d) (ow := Vr (fun x => x) d) (fun a _ => unit_point a) (control_points s) (control_points s).
Proof.
  intros Hw. unfold in_cube, rel_cps, unit_point. rewrite (wf_len s Hw). split.
  - intros H. split; auto.
  - intros (_ & H) i k Hi Hk. apply (H i Hi k Hk).
Qed.
Lemma fits_true rnd d (s : spline (point R d)) : wf s -> in_cube s -> FitsIntoUnitCube_rnd rnd s = Ok true.
Proof. intros Hw H. destruct (c104_fits rnd d s Hw) as (b & E & Hb). rewrite E. f_equal. apply Hb. auto. Qed.

Lemma c104_evaluate : forall p rnd d (s : spline (point R d)) xs, (0 < p)%nat -> nearest p rnd -> wf s -> in_cube s ->
  length xs = length (degrees s) -> Forall (parameter p) xs ->
  exists v, Evaluate_rnd rnd s xs = Ok v /\ forall k, (k < d)%nat -> 0 <= coord d v k <= 1.
Proof.
  intros p rnd d s xs Hp HR Hw HC HL HX.
  destruct (Evaluate_rel (o := SOps_rnd rnd) (ov := Vr rnd d) (ow := Vr rnd d) (fun a _ => unit_point a) s s xs Hw Hw eq_refl HL) as (v & _ & E & _ & H).
  - eapply Forall_impl; [|exact HX]. intros x (Rx & Bx). apply (keeps_unit p); auto.
  - apply (cube_rel s Hw). auto.
  - exists v. auto.
Qed.
Lemma c104_elevate : forall p rnd d (s : spline (point R d)) k, (0 < p)%nat -> nearest p rnd -> wf s -> in_cube s -> (k < length (degrees s))%nat ->
  (Z.of_nat (n_coeffs (upd_list (degrees s) k (nth k (degrees s) 0%nat + 1)%nat)) < 2 ^ 31)%Z ->
  exists r, OrderElevate_rnd rnd s k = Ok r /\ wf r /\ degrees r = upd_list (degrees s) k (nth k (degrees s) 0 + 1)%nat /\
    in_cube r /\ FitsIntoUnitCube_rnd rnd r = Ok true.
Proof.
  intros p rnd d s k Hp HR Hw HC Hk Hs.
  destruct (OrderElevate_rel (o := SOps_rnd rnd) (ov := Vr rnd d) (ow := Vr rnd d) (fun a _ => unit_point a) s s k Hw Hw eq_refl Hk (elev_nz p rnd Hp HR _)) as (r & r' & E & E' & Wr & _ & _ & Dr & H); auto.
  - intros i Hi. destruct (elev_factor p rnd Hp HR (nth k (degrees s) 0%nat) i) as (A & B); [lia|]. apply (keeps_unit p); auto.
  - apply (cube_rel s Hw). auto.
  - rewrite E in E'. injection E' as <-. assert (in_cube r) by (apply (cube_rel r Wr); exact H).
    exists r. split; [exact E|]. split; [auto|]. split; [exact Dr|]. split; [auto|apply fits_true; auto].
Qed.
Lemma c104_split : forall p rnd d (s : spline (point R d)) x k, (0 < p)%nat -> nearest p rnd -> wf s -> in_cube s -> (k < length (degrees s))%nat ->
  representable p x -> 0 < x < 1 ->
  exists l r, SplitAtPosition_rnd rnd s x k = Ok [l; r] /\ wf l /\ wf r /\ degrees l = degrees s /\ degrees r = degrees s /\
    in_cube l /\ in_cube r /\ FitsIntoUnitCube_rnd rnd l = Ok true /\ FitsIntoUnitCube_rnd rnd r = Ok true.
Proof.
  intros p rnd d s x k Hp HR Hw HC Hk Rx Hx.
  destruct (Split_rel (o := SOps_rnd rnd) (ov := Vr rnd d) (ow := Vr rnd d) (fun a _ => unit_point a) s s x k Hw Hw eq_refl Hk) as (l & r & l' & r' & E & E' & Wl & Wr & _ & _ & Dl & Dr & _ & _ & H1 & H2).
  - unfold slt. cbn [sltb s0 SOps_rnd]. destruct (Rlt_dec 0 x); auto. lra.
  - unfold slt. cbn [sltb s1 SOps_rnd]. destruct (Rlt_dec x 1); auto. lra.
  - apply (keeps_unit p); auto. lra.
  - apply (cube_rel s Hw). auto.
  - rewrite E in E'. injection E' as <- <-.
    assert (in_cube l) by (apply (cube_rel l Wl); exact H1). assert (in_cube r) by (apply (cube_rel r Wr); exact H2).
    exists l, r. split; [exact E|]. do 4 (split; [auto|]). split; [auto|]. split; [auto|]. split; apply fits_true; auto.
Qed.
Lemma split_range {V} {o : SOps R} {ov : VOps R V} (s : spline V) x k parts : SplitAtPosition s x k = Ok parts -> slt s0 x /\ slt x s1.
Proof.
  unfold SplitAtPosition, slt. intros E. destruct (sltb s0 x); [|discriminate]. destruct (sltb x s1); [auto|discriminate].
Qed.
Lemma split_cube p rnd d (s : spline (point R d)) x k l r : (0 < p)%nat -> nearest p rnd -> wf s -> (k < length (degrees s))%nat ->
  representable p x -> SplitAtPosition_rnd rnd s x k = Ok [l; r] -> in_cube s -> in_cube l /\ in_cube r.
Proof.
  intros Hp HR Hw Hk Rx E HC. destruct (split_range s x k _ E) as (A & B). unfold slt in A, B. cbn [sltb s0 s1 SOps_rnd] in A, B.
  assert (Hx : 0 < x < 1) by (destruct (Rlt_dec 0 x), (Rlt_dec x 1); try discriminate; lra).
  destruct (c104_split p rnd d s x k Hp HR Hw HC Hk Rx Hx) as (l' & r' & E' & _ & _ & _ & _ & Cl & Cr & _).
  rewrite E in E'. injection E' as <- <-. auto.
Qed.
Lemma c104_splits : forall p rnd d (s : spline (point R d)) planes k parts, (0 < p)%nat -> nearest p rnd -> wf s -> in_cube s ->
  (k < length (degrees s))%nat -> Forall (representable p) planes -> SplitAtPositions_rnd rnd s planes k = Ok parts ->
  forall q, In q parts -> in_cube q /\ FitsIntoUnitCube_rnd rnd q = Ok true.
Proof.
  intros p rnd d s planes k parts Hp HR Hw HC Hk HP E.
  enough (HQ : forall q, In q parts -> wf q /\ in_cube q).
  { intros q Hq. destruct (HQ q Hq). split; auto. apply fits_true; auto. }
  unfold SplitAtPositions_rnd, SplitAtPositions in E. destruct (is_sorted planes); [|discriminate]. cbn [negb] in E.
  destruct (Nat.eqb_spec (length planes) 0) as [E0|E0].
  { injection E as <-. intros q [<-|[]]. auto. }
  rewrite (get_ok (s0 (SOps := SOps_rnd rnd))) in E by lia. cbn [bind] in E. apply bind_ok in E. destruct E as (sp & E1 & E).
  destruct (split_faces (o := SOps_rnd rnd) (ov := Vr rnd d) s _ k sp Hw Hk E1) as (l & r & -> & Wl & Wr & Dl & Dr & _).
  assert (R0' : representable p (nth 0 planes 0)) by (eapply Forall_forall; [exact HP|apply nth_In; lia]).
  destruct (split_cube p rnd d s _ k l r Hp HR Hw Hk R0' E1 HC) as (Rl & Rr).
  cbn [get nth_error bind] in E. apply bind_ok in E. destruct E as ([out sp] & E2 & E).
  eapply (for_up_pci (fun i (st : list (spline (point R d)) * list (spline (point R d))) => let '(out, sp) := st in
    exists l r, sp = [l; r] /\ (forall q, In q out -> wf q /\ in_cube q) /\ wf r /\ degrees r = degrees s /\ in_cube r)) in E2.
  - destruct E2 as (l' & r' & -> & HW & Wr' & Dr' & Rr'). cbn [get nth_error bind] in E. injection E as <-.
    intros q Hq. apply in_app_or in Hq. destruct Hq as [Hq|[<-|[]]]; auto.
  - intros i [ou sp'] y Hi HI HB. destruct HI as (l' & r' & -> & HW & Wr' & Dr' & Rr').
    apply bind_ok in HB. destruct HB as (pi & _ & HB). apply bind_ok in HB. destruct HB as (pm & _ & HB).
    apply bind_ok in HB. destruct HB as (rel & Erel & HB). cbn [get nth_error bind] in HB.
    assert (RR : representable p rel).
    { unfold divS in Erel. destruct (seqb _ _); [discriminate|]. injection Erel as <-. apply HR. }
    apply bind_ok in HB. destruct HB as (sp2 & E3 & HB).
    assert (Hk' : (k < length (degrees r'))%nat) by congruence.
    destruct (split_faces (o := SOps_rnd rnd) (ov := Vr rnd d) r' _ k sp2 Wr' Hk' E3) as (l2 & r2 & -> & Wl2 & Wr2 & Dl2 & Dr2 & _).
    destruct (split_cube p rnd d r' _ k l2 r2 Hp HR Wr' Hk' RR E3 Rr') as (Rl2 & Rr2).
    cbn [get nth_error bind] in HB. injection HB as <-. exists l2, r2.
    split; [reflexivity|]. split.
    { intros q Hq. apply in_app_or in Hq. destruct Hq as [Hq|[<-|[]]]; auto. }
    split; [auto|]. split; [congruence|auto].
  - exists l, r. split; [reflexivity|]. split; [intros q [<-|[]]; auto|]. auto.
Qed.

(** ** Rational splines *)
Lemma under_rel {d} (r : rspline R (point R d)) rnd : rwf r -> in_cube_weighted r <->
  rel_cps (ov := Vr rnd d) (ow := Vs rnd) under (control_points (weighted_spline r)) (control_points (weight_function r)).
Proof.
  intros (Hu & Hw & Hd). unfold in_cube_weighted, rel_cps, under. rewrite (wf_len _ Hu), (wf_len _ Hw), Hd. split.
  - intros H. split; auto.
  - intros (_ & H). exact H.
Qed.
(** Dividing a weighted control point by its weight. *)
Lemma divide_unit p rnd a w : (0 < p)%nat -> nearest p rnd -> 0 < w -> 0 <= a <= w -> 0 <= rnd (rnd (1 / w) * a) <= 1.
Proof.
  intros Hp HR Hw Ha. assert (0 < rnd (1 / w)) by (apply (rnd_pos p); auto; apply Rdiv_lt_0_compat; lra).
  split; [apply (rnd_nonneg p rnd Hp HR), Rmult_le_pos; lra|].
  eapply Rle_trans; [|apply (inverse p rnd Hp HR w Hw)]. apply (rnd_mono p rnd Hp HR). rewrite Rmult_comm. apply Rmult_le_compat_r; lra.
Qed.
Lemma c104_rational_check : forall rnd d (r : rspline R (point R d)), rwf r ->
  (forall i, (i < n_coeffs (rdegrees r))%nat -> nth i (control_points (weight_function r)) 0 <> 0) ->
  exists b, R_FitsIntoUnitCube_rnd rnd r = Ok b /\ (b = true <-> forall i k, (i < n_coeffs (rdegrees r))%nat -> (k < d)%nat ->
    0 <= rnd (rnd (1 / nth i (control_points (weight_function r)) 0) * coord d (nth i (control_points (weighted_spline r)) v0) k) <= 1).
Proof.
  intros rnd d r Hr HZ. unfold R_FitsIntoUnitCube_rnd, R_FitsIntoUnitCube, R_MaximumCorner, R_MinimumCorner.
  assert (Hz : forall i, (i < n_coeffs (rdegrees r))%nat -> seqb (SOps := SOps_rnd rnd) (rw (o := SOps_rnd rnd) r i) (s0 (SOps := SOps_rnd rnd)) = false).
  { intros i Hi. specialize (HZ i Hi). unfold rw. cbn [seqb s0 SOps_rnd]. destruct (Req_EM_T _ 0) as [E|]; auto. contradiction. }
  set (f := fun i k => rnd (rnd (1 / nth i (control_points (weight_function r)) 0) * coord d (nth i (control_points (weighted_spline r)) v0) k)).
  assert (Hc : forall i k, (k < d)%nat -> coord d (rcp (o := SOps_rnd rnd) r i) k = f i k).
  { intros i k Hk. unfold rcp. rewrite coord_scale_rnd by auto. reflexivity. }
  pose proof (n_coeffs_pos (rdegrees r)) as Hn.
  destruct (R_Corner_gen (o := SOps_rnd rnd) (smax (o := SOps_rnd rnd)) r Hr Hz) as (mx & -> & Hx).
  destruct (R_Corner_gen (o := SOps_rnd rnd) (smin (o := SOps_rnd rnd)) r Hr Hz) as (mn & -> & Hm). cbn [bind].
  destruct (corners_fit_ok (o := SOps_rnd rnd) mx mn) as (b & -> & Hb). exists b. split; [reflexivity|]. rewrite Hb. clear Hb.
  change (@coord R (SOps_rnd rnd)) with (@coord R SOps_R) in *.
  assert (X : forall k, (k < d)%nat -> (forall i, (i < n_coeffs (rdegrees r))%nat -> f i k <= coord d mx k) /\ exists i, (i < n_coeffs (rdegrees r))%nat /\ f i k = coord d mx k).
  { intros k Hk. rewrite Hx by auto.
    destruct (pickn_max (o := SOps_R) (fun i => coord d (rcp (o := SOps_rnd rnd) r i) k) (n_coeffs (rdegrees r) - 1)) as (A & i & Hi & Ei).
    split; [intros j Hj; rewrite <- Hc by auto; apply sle_Rle; apply A; lia|]. exists i. split; [lia|]. rewrite <- Hc by auto. exact Ei. }
  assert (Y : forall k, (k < d)%nat -> (forall i, (i < n_coeffs (rdegrees r))%nat -> coord d mn k <= f i k) /\ exists i, (i < n_coeffs (rdegrees r))%nat /\ f i k = coord d mn k).
  { intros k Hk. rewrite Hm by auto.
    destruct (pickn_min (o := SOps_R) (fun i => coord d (rcp (o := SOps_rnd rnd) r i) k) (n_coeffs (rdegrees r) - 1)) as (A & i & Hi & Ei).
    split; [intros j Hj; rewrite <- Hc by auto; apply sle_Rle; apply A; lia|]. exists i. split; [lia|]. rewrite <- Hc by auto. exact Ei. }
  split.
  - intros H i k Hi Hk. destruct (H k Hk) as (B & C). apply sle_Rle in B, C. destruct (X k Hk) as (X1 & _), (Y k Hk) as (Y1 & _).
    specialize (X1 i Hi). specialize (Y1 i Hi). fold (f i k). cbn in B, C. lra.
  - intros H k Hk. destruct (X k Hk) as (_ & i & Hi & Ei), (Y k Hk) as (_ & j & Hj & Ej). split; apply sle_Rle.
    + rewrite <- Ei. apply (H i k Hi Hk).
    + rewrite <- Ej. apply (H j k Hj Hk).
Qed.
Lemma c104_rational_fits : forall p rnd d (r : rspline R (point R d)), (0 < p)%nat -> nearest p rnd -> rwf r -> in_cube_weighted r ->
  R_FitsIntoUnitCube_rnd rnd r = Ok true.
Proof.
  intros p rnd d r Hp HR Hr HC. destruct (c104_rational_check rnd d r Hr) as (b & -> & Hb).
  { intros i Hi. destruct (HC i Hi). lra. }
  f_equal. apply Hb. intros i k Hi Hk. destruct (HC i Hi) as (P & Q). apply (divide_unit p); auto.
Qed.
Lemma c104_rational_points : forall p rnd d deg (pts : list (point R d)) ws, (0 < p)%nat -> nearest p rnd ->
  deg <> [] -> length pts = n_coeffs deg -> length ws = n_coeffs deg ->
  (forall i k, (i < n_coeffs deg)%nat -> (k < d)%nat -> 0 <= coord d (nth i pts v0) k <= 1) ->
  Forall (fun w => representable p w /\ 0 < w) ws ->
  exists r, R_deg_points_rnd rnd deg pts ws = Ok r /\ rwf r /\ rdegrees r = deg /\ control_points (weight_function r) = ws /\
    (forall i k, (i < n_coeffs deg)%nat -> (k < d)%nat ->
       coord d (nth i (control_points (weighted_spline r)) v0) k = rnd (nth i ws 0 * coord d (nth i pts v0) k)) /\
    in_cube_weighted r /\ R_FitsIntoUnitCube_rnd rnd r = Ok true.
Proof.
  intros p rnd d deg pts ws Hp HR HD HL HL' HC HW. unfold R_deg_points_rnd. rewrite R_deg_points_ok by auto.
  pose proof (R_deg_points_wf (ov := Vr rnd d) deg pts ws HD HL HL') as Hr. eexists. split; [reflexivity|].
  match goal with |- rwf ?r /\ _ => assert (IC : in_cube_weighted r) end.
  { intros i Hi. cbn [rdegrees weighted_spline weight_function mk degrees control_points] in *.
    assert (Q : representable p (nth i ws 0) /\ 0 < nth i ws 0) by (eapply Forall_forall with (1 := HW); apply nth_In; lia).
    split; [apply Q|]. intros k Hk.
    rewrite (nth_map2 _ _ _ _ (v0 : point R d) 0) by lia.
    rewrite coord_scale_rnd by auto. pose proof (HC i k Hi Hk). split; [apply (rnd_nonneg p rnd Hp HR); nra|].
    rewrite <- (rnd_id p rnd Hp HR (nth i ws 0)) at 2 by apply Q. apply (rnd_mono p rnd Hp HR). nra. }
  split; [exact Hr|]. split; [reflexivity|]. split; [reflexivity|]. split.
  { intros i k Hi Hk. cbn [weighted_spline mk control_points]. rewrite (nth_map2 _ _ _ _ (v0 : point R d) 0) by lia. apply coord_scale_rnd. auto. }
  split; [exact IC|]. apply (c104_rational_fits p); auto.
Qed.

Lemma c104_rational_evaluate : forall p rnd d (r : rspline R (point R d)) xs, (0 < p)%nat -> nearest p rnd -> rwf r -> in_cube_weighted r ->
  length xs = length (rdegrees r) -> in_unit_box xs ->
  exists v, R_Evaluate_rnd rnd r xs = Ok v /\ forall k, (k < d)%nat -> 0 <= coord d v k <= 1.
Proof.
  intros p rnd d r xs Hp HR Hr HC HL HX. pose proof Hr as (Hu & Hw & Hd).
  destruct (Evaluate_rel (o := SOps_rnd rnd) (ov := Vr rnd d) (ow := Vs rnd) under (weighted_spline r) (weight_function r) xs) as (v & w & E1 & E2 & (Pw & H)); auto.
  - eapply Forall_impl; [|exact HX]. intros x Hx. apply (keeps_under p); auto.
  - apply under_rel; auto.
  - unfold R_Evaluate_rnd, R_Evaluate. rewrite E1. cbn [bind].
    rewrite E2. cbn [bind]. unfold vdiv, divS. cbn [seqb s0 SOps_rnd]. destruct (Req_EM_T w 0) as [E|_]; [lra|]. cbn [bind].
    eexists. split; [reflexivity|]. intros k Hk. rewrite coord_scale_rnd by auto. apply (divide_unit p); auto.
Qed.
Lemma R_mk_ok {T V} {ov : VOps T V} (u : spline V) (w : spline T) : wf u -> wf w -> degrees u = degrees w -> R_mk u w = Ok (mkR u w) /\ rwf (mkR u w).
Proof.
  intros Hu Hw Hd. assert (Hr : rwf (mkR u w)) by (split; [auto|split; [auto|symmetry; exact Hd]]). split; [|exact Hr].
  unfold R_mk. rewrite compatible_ok by auto. reflexivity.
Qed.
Lemma c104_rational_elevate : forall p rnd d (r : rspline R (point R d)) k, (0 < p)%nat -> nearest p rnd -> rwf r -> in_cube_weighted r ->
  (k < length (rdegrees r))%nat ->
  (Z.of_nat (n_coeffs (upd_list (rdegrees r) k (nth k (rdegrees r) 0%nat + 1)%nat)) < 2 ^ 31)%Z ->
  exists q, R_OrderElevate_rnd rnd r k = Ok q /\ rwf q /\ rdegrees q = upd_list (rdegrees r) k (nth k (rdegrees r) 0 + 1)%nat /\
    in_cube_weighted q /\ R_FitsIntoUnitCube_rnd rnd q = Ok true.
Proof.
  intros p rnd d r k Hp HR Hr HC Hk Hs. pose proof Hr as (Hu & Hw & Hd).
  destruct (OrderElevate_rel (o := SOps_rnd rnd) (ov := Vr rnd d) (ow := Vs rnd) under (weighted_spline r) (weight_function r) k Hu Hw (eq_sym Hd) Hk (elev_nz p rnd Hp HR _))
    as (a & b & E1 & E2 & Wa & Wb & Dab & Da & H); auto.
  - intros i Hi. destruct (elev_factor p rnd Hp HR (nth k (rdegrees r) 0%nat) i) as (A & B); [unfold rdegrees; lia|]. apply (keeps_under p); auto.
  - apply under_rel; auto.
  - unfold R_OrderElevate_rnd, R_OrderElevate. rewrite E1. cbn [bind]. rewrite E2. cbn [bind].
    destruct (R_mk_ok (ov := Vr rnd d) a b Wa Wb Dab) as (-> & Wq). exists (mkR a b). split; [reflexivity|]. split; [exact Wq|]. split; [exact Da|].
    assert (in_cube_weighted (mkR a b)) by (apply (under_rel _ rnd Wq); exact H). split; [auto|]. apply (c104_rational_fits p); auto.
Qed.
Lemma c104_rational_split : forall p rnd d (r : rspline R (point R d)) x k, (0 < p)%nat -> nearest p rnd -> rwf r -> in_cube_weighted r ->
  (k < length (rdegrees r))%nat -> 0 < x < 1 ->
  exists a b, R_SplitAtPosition_rnd rnd r x k = Ok [a; b] /\ rwf a /\ rwf b /\ rdegrees a = rdegrees r /\ rdegrees b = rdegrees r /\
    in_cube_weighted a /\ in_cube_weighted b /\ R_FitsIntoUnitCube_rnd rnd a = Ok true /\ R_FitsIntoUnitCube_rnd rnd b = Ok true.
Proof.
  intros p rnd d r x k Hp HR Hr HC Hk Hx. pose proof Hr as (Hu & Hw & Hd).
  destruct (Split_rel (o := SOps_rnd rnd) (ov := Vr rnd d) (ow := Vs rnd) under (weighted_spline r) (weight_function r) x k Hu Hw (eq_sym Hd) Hk)
    as (a & b & a' & b' & E1 & E2 & Wa & Wb & Wa' & Wb' & Da & Db & Da' & Db' & H1 & H2).
  - unfold slt. cbn [sltb s0 SOps_rnd]. destruct (Rlt_dec 0 x); auto. lra.
  - unfold slt. cbn [sltb s1 SOps_rnd]. destruct (Rlt_dec x 1); auto. lra.
  - apply (keeps_under p); auto. lra.
  - apply under_rel; auto.
  - unfold R_SplitAtPosition_rnd, R_SplitAtPosition. rewrite E1. cbn [bind]. rewrite E2. cbn [bind get nth_error].
    destruct (R_mk_ok (ov := Vr rnd d) a a' Wa Wa' ltac:(congruence)) as (-> & Wq1).
    destruct (R_mk_ok (ov := Vr rnd d) b b' Wb Wb' ltac:(congruence)) as (-> & Wq2). cbn [bind].
    assert (I1 : in_cube_weighted (mkR a a')) by (apply (under_rel _ rnd Wq1); exact H1).
    assert (I2 : in_cube_weighted (mkR b b')) by (apply (under_rel _ rnd Wq2); exact H2).
    exists (mkR a a'), (mkR b b'). split; [reflexivity|]. split; [exact Wq1|]. split; [exact Wq2|]. split; [exact Da|]. split; [exact Db|].
    split; [auto|]. split; [auto|]. split; apply (c104_rational_fits p); auto.
Qed.

(** ** Scalar-valued splines *)
Lemma c104_fits_scalar : forall rnd (s : spline R), wf s ->
  exists b, FitsIntoUnitCube_rnd_s rnd s = Ok b /\ (b = true <-> in_interval s).
Proof. intros rnd s Hw. apply fits_s. auto. Qed.
Lemma fits_true_s rnd (s : spline R) : wf s -> in_interval s -> FitsIntoUnitCube_rnd_s rnd s = Ok true.
Proof. intros Hw H. destruct (c104_fits_scalar rnd s Hw) as (b & E & Hb). rewrite E. f_equal. apply Hb. auto. Qed.
Lemma nth_emb (c : list R) i : coord 1 (nth i (map emb c) v0) 0 = nth i c 0.
Proof. change (v0 : point R 1) with (emb 0). rewrite map_nth. apply coord_emb. Qed.
Lemma corner_s_ok pick (s : spline R) m : Corner pick (lift s) = Ok m -> Corner_s pick s = Ok (coord 1 m 0).
Proof. rewrite lift_corner. destruct (Corner_s pick s); try discriminate. cbn [mapr bind]. intros E. injection E as <-. rewrite coord_emb. reflexivity. Qed.
Lemma c104_fit_scalar : forall p rnd (s : spline R), (0 < p)%nat -> nearest p rnd -> wf s ->
  (exists i j, (i < n_coeffs (degrees s))%nat /\ (j < n_coeffs (degrees s))%nat /\ nth i (control_points s) 0 <> nth j (control_points s) 0) ->
  exists r, FitIntoUnitCube_rnd_s rnd s = Ok r /\ wf r /\ degrees r = degrees s /\ in_interval r /\ FitsIntoUnitCube_rnd_s rnd r = Ok true /\
    forall lo hi, range (fun i => nth i (control_points s) 0) (n_coeffs (degrees s)) lo hi ->
    lo < hi /\ forall i, (i < n_coeffs (degrees s))%nat ->
      let c := nth i (control_points s) 0 in let c' := nth i (control_points r) 0 in
      (c = lo -> c' = 0) /\
      Rabs (c' - (c - lo) / (hi - lo)) <= ((1 + / 2 ^ p) ^ 3 / (1 - / 2 ^ p) - 1) * ((c - lo) / (hi - lo)).
Proof.
  intros p rnd s Hp HR Hw HV. unfold FitIntoUnitCube_rnd_s, FitIntoUnitCube_s, MaximumCorner_s, MinimumCorner_s.
  change (Corner_s (smax (o := SOps_rnd rnd)) s) with (Corner_s smax s). change (Corner_s (smin (o := SOps_rnd rnd)) s) with (Corner_s smin s).
  pose proof (wf_lift s Hw) as Hw'.
  destruct (corner_max (lift s) Hw') as (mx' & Ex' & Hx). destruct (corner_min (lift s) Hw') as (mn' & Em' & Hm).
  rewrite (corner_s_ok _ _ _ Ex'), (corner_s_ok _ _ _ Em'). cbn [bind].
  specialize (Hx 0%nat ltac:(lia)). specialize (Hm 0%nat ltac:(lia)). unfold cpc in Hx, Hm. cbn [lift control_points] in Hx, Hm.
  rewrite map_length, (wf_len s Hw) in Hx, Hm. set (mx := coord 1 mx' 0) in *. set (mn := coord 1 mn' 0) in *.
  destruct Hx as (X & x & Hxi & Ex), Hm as (Y & y & Hyi & Ey). rewrite nth_emb in Ex, Ey.
  assert (B : forall i, (i < n_coeffs (degrees s))%nat -> mn <= nth i (control_points s) 0 <= mx).
  { intros i Hi. specialize (X i Hi). specialize (Y i Hi). rewrite nth_emb in X, Y. apply sle_Rle in X, Y. auto. }
  assert (L : mn < mx).
  { destruct HV as (i & j & Hi & Hj & N). pose proof (B i Hi). pose proof (B j Hj). lra. }
  assert (P : 0 < rnd (mx - mn)) by (apply (rnd_pos p); auto; lra).
  unfold divS. cbn [seqb s0 SOps_rnd ssub sdiv s1 sopp]. destruct (Req_EM_T (rnd (mx - mn)) 0) as [E0|_]; [lra|]. cbn [bind].
  destruct (TransposeAndScale_ok (o := SOps_rnd rnd) (lift s) (emb (- mn)) (emb (rnd (1 / rnd (mx - mn)))) Hw') as (r' & E2 & Wr & Dr & Lr & H).
  rewrite lift_transpose in E2.
  destruct (TransposeAndScale_s (o := SOps_rnd rnd) s (- mn) (rnd (1 / rnd (mx - mn)))) as [r| | | | |] eqn:E3; try discriminate.
  cbn [mapr bind] in E2. injection E2 as <-. cbn [lift degrees control_points] in Dr, Lr, H. rewrite !map_length in Lr.
  assert (Wr' : wf r).
  { destruct Wr as (W1 & W2 & W3 & W4). cbn [lift degrees number_of_control_points index_offsets control_points] in *. rewrite map_length in W4. repeat split; auto. }
  assert (HC : forall i, (i < n_coeffs (degrees s))%nat -> nth i (control_points r) 0 =
    rnd (rnd (- mn + nth i (control_points s) 0) * rnd (1 / rnd (mx - mn)))).
  { intros i Hi. specialize (H i 0%nat). unfold cpc in H. cbn [lift control_points smul sadd SOps_rnd] in H. rewrite map_length, (wf_len s Hw) in H.
    specialize (H Hi ltac:(lia)). change (@coord R (SOps_rnd rnd)) with (@coord R SOps_R) in H. change (v0 (VOps := Vr rnd 1)) with (v0 : point R 1) in H.
    rewrite !nth_emb, !coord_emb in H. exact H. }
  assert (IC : in_interval r).
  { intros i Hi. rewrite Dr in Hi. rewrite HC by auto. apply (fit_number p rnd Hp HR (nth i (control_points s) 0)); auto. }
  exists r. split; [reflexivity|]. split; [auto|]. split; [auto|]. split; [auto|]. split; [apply fits_true_s; auto|].
  intros lo hi HRa. destruct HRa as (Ra & (a & Ha & Ea) & (b & Hb & Eb)).
  assert (H0 : lo = mn). { pose proof (Ra y Hyi). pose proof (B a Ha). rewrite Ey in *. rewrite Ea in *. lra. }
  assert (H1 : hi = mx). { pose proof (Ra x Hxi). pose proof (B b Hb). rewrite Ex in *. rewrite Eb in *. lra. }
  rewrite H0, H1. split; [exact L|]. intros i Hi. rewrite HC by auto. apply (fit_number p rnd Hp HR (nth i (control_points s) 0)); auto.
Qed.
Lemma interval_rel rnd (s : spline R) : wf s -> in_interval s <->
  rel_cps (ov := Vs rnd) (ow := Vs rnd) (fun a _ => unit_num a) (control_points s) (control_points s).
Proof.
  intros Hw. unfold in_interval, rel_cps, unit_num. rewrite (wf_len s Hw). split.
  - intros H. split; auto.
  - intros (_ & H). exact H.
Qed.
Lemma c104_evaluate_scalar : forall p rnd (s : spline R) xs, (0 < p)%nat -> nearest p rnd -> wf s -> in_interval s ->
  length xs = length (degrees s) -> Forall (parameter p) xs ->
  exists v, Evaluate_rnd_s rnd s xs = Ok v /\ 0 <= v <= 1.
Proof.
  intros p rnd s xs Hp HR Hw HC HL HX.
  destruct (Evaluate_rel (o := SOps_rnd rnd) (ov := Vs rnd) (ow := Vs rnd) (fun a _ => unit_num a) s s xs Hw Hw eq_refl HL) as (v & v' & E & _ & H).
  - eapply Forall_impl; [|exact HX]. intros x (Rx & Bx). apply (keeps_unit_num p); auto.
  - apply (interval_rel rnd s Hw). auto.
  - exists v. auto.
Qed.
Lemma c104_elevate_scalar : forall p rnd (s : spline R) k, (0 < p)%nat -> nearest p rnd -> wf s -> in_interval s -> (k < length (degrees s))%nat ->
  (Z.of_nat (n_coeffs (upd_list (degrees s) k (nth k (degrees s) 0%nat + 1)%nat)) < 2 ^ 31)%Z ->
  exists r, OrderElevate_rnd_s rnd s k = Ok r /\ wf r /\ degrees r = upd_list (degrees s) k (nth k (degrees s) 0 + 1)%nat /\
    in_interval r /\ FitsIntoUnitCube_rnd_s rnd r = Ok true.
Proof.
  intros p rnd s k Hp HR Hw HC Hk Hs.
  destruct (OrderElevate_rel (o := SOps_rnd rnd) (ov := Vs rnd) (ow := Vs rnd) (fun a _ => unit_num a) s s k Hw Hw eq_refl Hk (elev_nz p rnd Hp HR _)) as (r & r' & E & E' & Wr & _ & _ & Dr & H); auto.
  - intros i Hi. destruct (elev_factor p rnd Hp HR (nth k (degrees s) 0%nat) i) as (A & B); [lia|]. apply (keeps_unit_num p); auto.
  - apply (interval_rel rnd s Hw). auto.
  - rewrite E in E'. injection E' as <-. assert (in_interval r) by (apply (interval_rel rnd r Wr); exact H).
    exists r. split; [exact E|]. split; [auto|]. split; [exact Dr|]. split; [auto|apply fits_true_s; auto].
Qed.
Lemma c104_split_scalar : forall p rnd (s : spline R) x k, (0 < p)%nat -> nearest p rnd -> wf s -> in_interval s -> (k < length (degrees s))%nat ->
  representable p x -> 0 < x < 1 ->
  exists l r, SplitAtPosition_rnd_s rnd s x k = Ok [l; r] /\ wf l /\ wf r /\ degrees l = degrees s /\ degrees r = degrees s /\
    in_interval l /\ in_interval r /\ FitsIntoUnitCube_rnd_s rnd l = Ok true /\ FitsIntoUnitCube_rnd_s rnd r = Ok true.
Proof.
  intros p rnd s x k Hp HR Hw HC Hk Rx Hx.
  destruct (Split_rel (o := SOps_rnd rnd) (ov := Vs rnd) (ow := Vs rnd) (fun a _ => unit_num a) s s x k Hw Hw eq_refl Hk) as (l & r & l' & r' & E & E' & Wl & Wr & _ & _ & Dl & Dr & _ & _ & H1 & H2).
  - unfold slt. cbn [sltb s0 SOps_rnd]. destruct (Rlt_dec 0 x); auto. lra.
  - unfold slt. cbn [sltb s1 SOps_rnd]. destruct (Rlt_dec x 1); auto. lra.
  - apply (keeps_unit_num p); auto. lra.
  - apply (interval_rel rnd s Hw). auto.
  - rewrite E in E'. injection E' as <- <-.
    assert (in_interval l) by (apply (interval_rel rnd l Wl); exact H1). assert (in_interval r) by (apply (interval_rel rnd r Wr); exact H2).
    exists l, r. split; [exact E|]. do 4 (split; [auto|]). split; [auto|]. split; [auto|]. split; apply fits_true_s; auto.
Qed.

(** Scalar-valued rational splines. *)
Lemma quotient_unit p rnd a w : (0 < p)%nat -> nearest p rnd -> 0 < w -> 0 <= a <= w -> 0 <= rnd (a / w) <= 1.
Proof.
  intros Hp HR Hw Ha. assert (0 <= a / w <= 1).
  { split; [apply Rmult_le_pos; [lra|]; left; apply Rinv_0_lt_compat; lra|].
    apply (Rmult_le_reg_r w); auto. unfold Rdiv. rewrite Rmult_assoc, Rinv_l; lra. }
  split; [apply (rnd_nonneg p rnd Hp HR); lra|apply (rnd_le1 p rnd Hp HR); lra].
Qed.
Lemma under_rel_s rnd (r : rspline R R) : rwf r -> in_interval_weighted r <->
  rel_cps (ov := Vs rnd) (ow := Vs rnd) under_num (control_points (weighted_spline r)) (control_points (weight_function r)).
Proof.
  intros (Hu & Hw & Hd). unfold in_interval_weighted, rel_cps, under_num. rewrite (wf_len _ Hu), (wf_len _ Hw), Hd. split.
  - intros H. split; auto.
  - intros (_ & H). exact H.
Qed.
Lemma div_rnd rnd a w : 0 < w -> divS (H := SOps_rnd rnd) a w = Ok (rnd (a / w)).
Proof. intros H. unfold divS. cbn [seqb s0 SOps_rnd]. destruct (Req_EM_T w 0); [lra|reflexivity]. Qed.
Lemma c104_rational_check_scalar : forall rnd (r : rspline R R), rwf r ->
  (forall i, (i < n_coeffs (rdegrees r))%nat -> nth i (control_points (weight_function r)) 0 <> 0) ->
  exists b, R_FitsIntoUnitCube_rnd_s rnd r = Ok b /\ (b = true <-> forall i, (i < n_coeffs (rdegrees r))%nat ->
    0 <= rnd (nth i (control_points (weighted_spline r)) 0 / nth i (control_points (weight_function r)) 0) <= 1).
Proof.
  intros rnd r Hr HZ. pose proof Hr as (Hu & Hw & Hd). pose proof (n_coeffs_pos (rdegrees r)) as Hn.
  pose proof (wf_len _ Hu) as Lu. pose proof (wf_len _ Hw) as Lw. fold (rdegrees r) in Lu. rewrite Hd in Lw. fold (rdegrees r) in Lw.
  set (f := fun i => rnd (nth i (control_points (weighted_spline r)) 0 / nth i (control_points (weight_function r)) 0)).
  assert (HD : forall i, (i < n_coeffs (rdegrees r))%nat -> divS (H := SOps_rnd rnd) (nth i (control_points (weighted_spline r)) 0) (nth i (control_points (weight_function r)) 0) = Ok (f i)).
  { intros i Hi. specialize (HZ i Hi). unfold divS. cbn [seqb s0 SOps_rnd]. destruct (Req_EM_T _ 0); [contradiction|reflexivity]. }
  assert (Key : forall pick : R -> R -> R, R_Corner_rnd_s rnd pick r = Ok (pickn pick f (n_coeffs (rdegrees r) - 1))).
  { intros pick. unfold R_Corner_rnd_s. pose proof Hu as (_ & Nu & _ & _). fold (rdegrees r) in Nu. rewrite Nu.
    rewrite (proj2 (Nat.eqb_neq _ 0)) by lia. rewrite LocalToGlobal_ok by auto. cbn [bind]. rewrite Hd. fold (rdegrees r).
    unfold R_ControlPoint_rnd_s. rewrite !(ControlPoint_ok 0) by (auto; rewrite ?Hd; apply index_of_valid). rewrite Hd. fold (rdegrees r).
    cbn [bind]. rewrite index_of_0. change (ornd rnd) with (SOps_rnd rnd). rewrite HD by auto. cbn [bind].
    edestruct (for_up_inv (fun n m => m = pickn pick f (n - 1))) as (m & E & H).
    3:{ etransitivity; [exact E|]. rewrite H. do 2 f_equal. lia. }
    - reflexivity.
    - cbv beta. intros i m Hi ->. rewrite (get_ok 0) by lia. cbn [bind]. rewrite (get_ok 0) by lia. cbn [bind].
      rewrite HD by lia. cbn [bind]. eexists. split; [reflexivity|].
      replace (S i - 1)%nat with (S (i - 1)) by lia. cbn [pickn]. replace (S (i - 1)) with i by lia. reflexivity. }
  unfold R_FitsIntoUnitCube_rnd_s. rewrite !Key. cbn [bind]. change (ornd rnd) with (SOps_rnd rnd).
  change (pickn (smax (o := SOps_rnd rnd))) with (pickn (smax (o := SOps_R))). change (pickn (smin (o := SOps_rnd rnd))) with (pickn (smin (o := SOps_R))).
  destruct (pickn_max (o := SOps_R) f (n_coeffs (rdegrees r) - 1)) as (A & i & Hi & Ei).
  destruct (pickn_min (o := SOps_R) f (n_coeffs (rdegrees r) - 1)) as (B & j & Hj & Ej).
  set (mx := pickn smax f (n_coeffs (rdegrees r) - 1)) in *. set (mn := pickn smin f (n_coeffs (rdegrees r) - 1)) in *.
  exists (negb (sltb (SOps := SOps_rnd rnd) (s1 (SOps := SOps_rnd rnd)) mx || sltb (SOps := SOps_rnd rnd) mn (s0 (SOps := SOps_rnd rnd)))).
  split; [destruct (sltb _ _ || _); reflexivity|]. cbn [sltb s0 s1 SOps_rnd].
  split.
  - intros H l Hl. specialize (A l ltac:(lia)). specialize (B l ltac:(lia)). apply sle_Rle in A, B. fold (f l).
    destruct (Rlt_dec 1 mx); [discriminate|]. destruct (Rlt_dec mn 0); [discriminate|]. lra.
  - intros H. pose proof (H i ltac:(lia)) as Hi'. pose proof (H j ltac:(lia)) as Hj'. fold (f i) in Hi'. fold (f j) in Hj'.
    rewrite Ei in Hi'. rewrite Ej in Hj'. destruct (Rlt_dec 1 mx); [lra|]. destruct (Rlt_dec mn 0); [lra|]. reflexivity.
Qed.
Lemma c104_rational_fits_scalar : forall p rnd (r : rspline R R), (0 < p)%nat -> nearest p rnd -> rwf r -> in_interval_weighted r ->
  R_FitsIntoUnitCube_rnd_s rnd r = Ok true.
Proof.
  intros p rnd r Hp HR Hr HC. destruct (c104_rational_check_scalar rnd r Hr) as (b & -> & Hb).
  { intros i Hi. destruct (HC i Hi). lra. }
  f_equal. apply Hb. intros i Hi. destruct (HC i Hi) as (P & Q). apply (quotient_unit p); auto.
Qed.
Lemma c104_rational_evaluate_scalar : forall p rnd (r : rspline R R) xs, (0 < p)%nat -> nearest p rnd -> rwf r -> in_interval_weighted r ->
  length xs = length (rdegrees r) -> in_unit_box xs ->
  exists v, R_Evaluate_rnd_s rnd r xs = Ok v /\ 0 <= v <= 1.
Proof.
  intros p rnd r xs Hp HR Hr HC HL HX. pose proof Hr as (Hu & Hw & Hd).
  destruct (Evaluate_rel (o := SOps_rnd rnd) (ov := Vs rnd) (ow := Vs rnd) under_num (weighted_spline r) (weight_function r) xs) as (v & w & E1 & E2 & (Pw & H)); auto.
  - eapply Forall_impl; [|exact HX]. intros x Hx. apply (keeps_under_num p); auto.
  - apply under_rel_s; auto.
  - unfold R_Evaluate_rnd_s. change (ornd rnd) with (SOps_rnd rnd). change (ovs rnd) with (Vs rnd). rewrite E1. cbn [bind]. rewrite E2. cbn [bind]. rewrite div_rnd by auto. eexists. split; [reflexivity|].
    apply (quotient_unit p); auto.
Qed.
Lemma c104_rational_points_scalar : forall p rnd deg (pts ws : list R), (0 < p)%nat -> nearest p rnd ->
  deg <> [] -> length pts = n_coeffs deg -> length ws = n_coeffs deg ->
  Forall (fun c => 0 <= c <= 1) pts -> Forall (fun w => representable p w /\ 0 < w) ws ->
  exists r, R_deg_points_rnd_s rnd deg pts ws = Ok r /\ rwf r /\ rdegrees r = deg /\ control_points (weight_function r) = ws /\
    (forall i, (i < n_coeffs deg)%nat -> nth i (control_points (weighted_spline r)) 0 = rnd (nth i ws 0 * nth i pts 0)) /\
    in_interval_weighted r /\ R_FitsIntoUnitCube_rnd_s rnd r = Ok true.
Proof.
  intros p rnd deg pts ws Hp HR HD HL HL' HC HW. unfold R_deg_points_rnd_s. rewrite R_deg_points_ok by auto.
  pose proof (R_deg_points_wf (ov := Vs rnd) deg pts ws HD HL HL') as Hr. eexists. split; [reflexivity|].
  match goal with |- rwf ?r /\ _ => assert (IC : in_interval_weighted r) end.
  { intros i Hi. cbn [rdegrees weighted_spline weight_function mk degrees control_points] in *.
    assert (Q : representable p (nth i ws 0) /\ 0 < nth i ws 0) by (eapply Forall_forall with (1 := HW); apply nth_In; lia).
    assert (C : 0 <= nth i pts 0 <= 1) by (eapply Forall_forall with (1 := HC); apply nth_In; lia).
    split; [apply Q|]. rewrite (nth_map2 _ _ _ _ 0 0) by lia. cbn [vscale VOps_scalar smul SOps_rnd].
    split; [apply (rnd_nonneg p rnd Hp HR); nra|].
    rewrite <- (rnd_id p rnd Hp HR (nth i ws 0)) at 2 by apply Q. apply (rnd_mono p rnd Hp HR). nra. }
  split; [exact Hr|]. split; [reflexivity|]. split; [reflexivity|]. split.
  { intros i Hi. cbn [weighted_spline mk control_points]. rewrite (nth_map2 _ _ _ _ 0 0) by lia. reflexivity. }
  split; [exact IC|]. apply (c104_rational_fits_scalar p); auto.
Qed.
Lemma c104_rational_elevate_scalar : forall p rnd (r : rspline R R) k, (0 < p)%nat -> nearest p rnd -> rwf r -> in_interval_weighted r ->
  (k < length (rdegrees r))%nat ->
  (Z.of_nat (n_coeffs (upd_list (rdegrees r) k (nth k (rdegrees r) 0%nat + 1)%nat)) < 2 ^ 31)%Z ->
  exists q, R_OrderElevate_rnd_s rnd r k = Ok q /\ rwf q /\ rdegrees q = upd_list (rdegrees r) k (nth k (rdegrees r) 0 + 1)%nat /\
    in_interval_weighted q /\ R_FitsIntoUnitCube_rnd_s rnd q = Ok true.
Proof.
  intros p rnd r k Hp HR Hr HC Hk Hs. pose proof Hr as (Hu & Hw & Hd).
  destruct (OrderElevate_rel (o := SOps_rnd rnd) (ov := Vs rnd) (ow := Vs rnd) under_num (weighted_spline r) (weight_function r) k Hu Hw (eq_sym Hd) Hk (elev_nz p rnd Hp HR _))
    as (a & b & E1 & E2 & Wa & Wb & Dab & Da & H); auto.
  - intros i Hi. destruct (elev_factor p rnd Hp HR (nth k (rdegrees r) 0%nat) i) as (A & B); [unfold rdegrees; lia|]. apply (keeps_under_num p); auto.
  - apply under_rel_s; auto.
  - unfold R_OrderElevate_rnd_s, R_OrderElevate. rewrite E1. cbn [bind]. rewrite E2. cbn [bind].
    destruct (R_mk_ok (ov := Vs rnd) a b Wa Wb Dab) as (-> & Wq). exists (mkR a b). split; [reflexivity|]. split; [exact Wq|]. split; [exact Da|].
    assert (in_interval_weighted (mkR a b)) by (apply (under_rel_s rnd _ Wq); exact H). split; [auto|]. apply (c104_rational_fits_scalar p); auto.
Qed.
Lemma c104_rational_split_scalar : forall p rnd (r : rspline R R) x k, (0 < p)%nat -> nearest p rnd -> rwf r -> in_interval_weighted r ->
  (k < length (rdegrees r))%nat -> 0 < x < 1 ->
  exists a b, R_SplitAtPosition_rnd_s rnd r x k = Ok [a; b] /\ rwf a /\ rwf b /\ rdegrees a = rdegrees r /\ rdegrees b = rdegrees r /\
    in_interval_weighted a /\ in_interval_weighted b /\ R_FitsIntoUnitCube_rnd_s rnd a = Ok true /\ R_FitsIntoUnitCube_rnd_s rnd b = Ok true.
Proof.
  intros p rnd r x k Hp HR Hr HC Hk Hx. pose proof Hr as (Hu & Hw & Hd).
  destruct (Split_rel (o := SOps_rnd rnd) (ov := Vs rnd) (ow := Vs rnd) under_num (weighted_spline r) (weight_function r) x k Hu Hw (eq_sym Hd) Hk)
    as (a & b & a' & b' & E1 & E2 & Wa & Wb & Wa' & Wb' & Da & Db & Da' & Db' & H1 & H2).
  - unfold slt. cbn [sltb s0 SOps_rnd]. destruct (Rlt_dec 0 x); auto. lra.
  - unfold slt. cbn [sltb s1 SOps_rnd]. destruct (Rlt_dec x 1); auto. lra.
  - apply (keeps_under_num p); auto. lra.
  - apply under_rel_s; auto.
  - unfold R_SplitAtPosition_rnd_s, R_SplitAtPosition. rewrite E1. cbn [bind]. rewrite E2. cbn [bind get nth_error].
    destruct (R_mk_ok (ov := Vs rnd) a a' Wa Wa' ltac:(congruence)) as (-> & Wq1).
    destruct (R_mk_ok (ov := Vs rnd) b b' Wb Wb' ltac:(congruence)) as (-> & Wq2). cbn [bind].
    assert (I1 : in_interval_weighted (mkR a a')) by (apply (under_rel_s rnd _ Wq1); exact H1).
    assert (I2 : in_interval_weighted (mkR b b')) by (apply (under_rel_s rnd _ Wq2); exact H2).
    exists (mkR a a'), (mkR b b'). split; [reflexivity|]. split; [exact Wq1|]. split; [exact Wq2|]. split; [exact Da|]. split; [exact Db|].
    split; [auto|]. split; [auto|]. split; apply (c104_rational_fits_scalar p); auto.
Qed.

(** ** The greatest coordinate need not become 1 *)
Lemma two_Z d : (0 <= d)%Z -> IZR (2 ^ d) = powerRZ 2 d.
Proof. intros H. rewrite <- (Z2Nat.id d) by auto. apply two_IZR. Qed.
Lemma two_neg d : powerRZ 2 (- d) = / powerRZ 2 d.
Proof. pose proof (two_inv d). pose proof (two_pos d). apply (Rmult_eq_reg_l (powerRZ 2 d)); [|lra]. rewrite Rinv_r; lra. Qed.
Lemma abs_le x a : Rabs x <= a -> - a <= x <= a.
Proof. unfold Rabs. destruct (Rcase_abs x); lra. Qed.
Lemma inverse_49 rnd : nearest 53 rnd -> rnd (1 / 49) = 5882252574524729 * / IZR (2 ^ 58).
Proof.
  intros HR. set (Q := IZR (2 ^ 58)). assert (EQ : Q = 288230376151711744) by reflexivity.
  destruct (HR (1 / 49)) as ((m & e & Hm & Em) & HB). rewrite Em in *. clear Em.
  assert (HY : representable 53 (5882252574524729 * / Q)).
  { exists 5882252574524729%Z, (-58)%Z. split; [vm_compute; reflexivity|]. f_equal. unfold Q. rewrite two_Z by lia. rewrite <- two_neg. reflexivity. }
  specialize (HB _ HY).
  assert (HD : Rabs (5882252574524729 * / Q - 1 / 49) <= 23 / 49 * / Q).
  { apply Rabs_le. rewrite EQ. lra. }
  pose proof (Rle_trans _ _ _ HB HD) as HB'. apply abs_le in HB'.
  assert (He : (-58 <= e)%Z).
  { destruct (Z_lt_le_dec e (-58)) as [L|]; [|lia]. exfalso.
    assert (powerRZ 2 e <= powerRZ 2 (-59)) by (apply two_le; lia).
    assert (IZR m <= IZR (2 ^ 53)) by (apply IZR_le; change (Z.of_nat 53) with 53%Z in Hm; lia).
    assert (IZR m * powerRZ 2 e <= IZR (2 ^ 53) * powerRZ 2 (-59)).
    { pose proof (two_pos e). apply Rle_trans with (IZR (2 ^ 53) * powerRZ 2 e); [apply Rmult_le_compat_r; lra|]. apply Rmult_le_compat_l; [apply (IZR_le 0); discriminate|auto]. }
    assert (E6 : IZR (2 ^ 53) * powerRZ 2 (-59) = / 64).
    { rewrite two_Z by lia. rewrite <- two_add. change (53 + -59)%Z with (Z.opp 6). rewrite two_neg. f_equal. rewrite <- two_Z by lia. reflexivity. }
    rewrite EQ in HB'. lra. }
  assert (EM : IZR m * powerRZ 2 e = IZR (m * 2 ^ (e + 58)) * / Q).
  { rewrite mult_IZR, Rmult_assoc. f_equal. unfold Q. rewrite !two_Z by lia. rewrite <- two_neg. rewrite <- two_add. f_equal. lia. }
  rewrite EM in *. clear EM. set (M := (m * 2 ^ (e + 58))%Z) in *. f_equal.
  assert (IZR (M - 5882252574524729) < 1) by (rewrite minus_IZR; rewrite EQ in HB'; lra).
  assert (-1 < IZR (M - 5882252574524729)) by (rewrite minus_IZR; rewrite EQ in HB'; lra).
  apply lt_IZR in H. apply lt_IZR in H0. f_equal. lia.
Qed.
Lemma product_49 rnd : nearest 53 rnd -> rnd (49 * rnd (1 / 49)) < 1.
Proof.
  intros HR. rewrite (inverse_49 rnd HR). set (Q := IZR (2 ^ 58)). assert (EQ : Q = 288230376151711744) by reflexivity.
  destruct (HR (49 * (5882252574524729 * / Q))) as (_ & HB).
  assert (HY : representable 53 (9007199254740991 * / IZR (2 ^ 53))).
  { exists 9007199254740991%Z, (-53)%Z. split; [vm_compute; reflexivity|]. f_equal. rewrite two_Z by lia. rewrite <- two_neg. reflexivity. }
  specialize (HB _ HY). set (t := rnd _) in *. assert (E53 : IZR (2 ^ 53) = 9007199254740992) by reflexivity. rewrite E53, EQ in HB.
  assert (Rabs (9007199254740991 * / 9007199254740992 - 49 * (5882252574524729 * / 288230376151711744)) <= 9 / 288230376151711744) by (apply Rabs_le; lra).
  pose proof (Rle_trans _ _ _ HB H) as HB'. apply abs_le in HB'. lra.
Qed.
Lemma c104_fit_max_below : exists s : spline (point R 1), wf s /\ numbers 53 s /\ varies s /\
  forall rnd, nearest 53 rnd -> exists r, FitIntoUnitCube_rnd rnd s = Ok r /\
    forall i, (i < n_coeffs (degrees r))%nat -> coord 1 (nth i (control_points r) v0) 0 < 1.
Proof.
  set (s := mk [1%nat] [emb 0; emb 49] : spline (point R 1)).
  assert (Hw : wf s) by (apply wf_mk; [discriminate|reflexivity]).
  assert (C0 : coord 1 (nth 0 (control_points s) v0) 0 = 0) by reflexivity.
  assert (C1 : coord 1 (nth 1 (control_points s) v0) 0 = 49) by reflexivity.
  assert (HN : numbers 53 s).
  { intros i k Hi Hk. cbn in Hi. replace k with 0%nat by lia. assert (Hc : (i = 0 \/ i = 1)%nat) by lia. destruct Hc as [-> | ->].
    - rewrite C0. exists 0%Z, 0%Z. split; [reflexivity|]. simpl. ring.
    - rewrite C1. exists 49%Z, 0%Z. split; [reflexivity|]. simpl. ring. }
  assert (HV : varies s).
  { intros k Hk. replace k with 0%nat by lia. exists 0%nat, 1%nat. split; [cbn; lia|]. split; [cbn; lia|]. rewrite C0, C1. lra. }
  exists s. split; [auto|]. split; [auto|]. split; [auto|]. intros rnd HR.
  exists (mk [1%nat] [emb (rnd (rnd (rnd (0 * - (1)) + 0) * rnd (1 / rnd (49 - 0)))); emb (rnd (rnd (rnd (0 * - (1)) + 49) * rnd (1 / rnd (49 - 0))))]).
  assert (R0' : rnd 0 = 0) by (apply (rnd_0' 53); auto; lia).
  assert (R49 : rnd 49 = 49) by (apply (rnd_id 53); auto; [lia|]; rewrite <- C1; apply HN; [cbn; lia|lia]).
  replace (49 - 0) with 49 by ring. replace (0 * - (1)) with 0 by ring. rewrite R0', !Rplus_0_l, R49, R0', Rmult_0_l, R0'.
  split.
  - unfold FitIntoUnitCube_rnd, FitIntoUnitCube, MaximumCorner, MinimumCorner, Corner, s. cbn. unfold smax, smin. cbn.
    destruct (Rlt_dec 0 49); [|lra]. destruct (Rlt_dec 49 0); [lra|]. unfold divS. cbn. replace (49 - 0) with 49 by ring. rewrite R49.
    destruct (Req_EM_T 49 0); [lra|]. cbn. replace (0 * - (1)) with 0 by ring. rewrite R0', !Rplus_0_l, R49, R0', Rmult_0_l, R0'. reflexivity.
  - intros i Hi. cbn in Hi. assert (Hc : (i = 0 \/ i = 1)%nat) by lia. destruct Hc as [-> | ->].
    + change (0 < 1). lra.
    + change (rnd (49 * rnd (1 / 49)) < 1). apply product_49. auto.
Qed.
