(** The example program of example/Microstructure. *)
From Coq Require Import Arith Lia List ZArith NArith Bool Reals Lra.
From Verif Require Import Prelude Scalar Spec Coord ModelBasis ModelSpline ModelRational SpecSpline SpecRational
  ProofIndex ProofEval ProofRational ModelExample SpecExample ProofExample ClaimsC ClaimsH.
Import ListNotations.
Local Open Scope R_scope.

Lemma c80_tile : forall t : R, let a := / 2 - t / 2 in let b := / 2 + t / 2 in
  exists center left right down up, SimpleCrossTile t = Ok [center; left; right; down; up] /\
    rectangle a b a b center /\ rectangle 0 a a b left /\ rectangle b 1 a b right /\
    rectangle a b 0 a down /\ rectangle a b b 1 up.
Proof.
  intros t a b. do 5 eexists. split; [apply SimpleCrossTile_ok|].
  replace (/ 2 - / 2 * t) with a by (unfold a; field). replace (/ 2 + / 2 * t) with b by (unfold b; field).
  repeat split; try discriminate; apply square_rectangle.
Qed.

Lemma Ok_inj A (a b : A) : Ok a = Ok b -> a = b.
Proof. intros H. injection H. auto. Qed.

Lemma Rabs_bounds x e : Rabs x <= e <-> - e <= x <= e.
Proof. unfold Rabs. destruct (Rcase_abs x); lra. Qed.

Lemma in_unit_real (x : R) : in_unit x <-> unit_real x.
Proof.
  unfold in_unit, unit_real, sle. cbn [sltb s0 s1 SOps_R].
  destruct (Rlt_dec x R0) as [A|A]; destruct (Rlt_dec R1 x) as [B|B]; change R1 with 1 in *; change R0 with 0 in *;
    split; intros (C & D); try discriminate; try lra; auto.
Qed.

Lemma square_fits x0 x1 y0 y1 : exists b, FitsIntoUnitCube (square_spline x0 x1 y0 y1) = Ok b /\
  (b = true <-> unit_real x0 /\ unit_real x1 /\ unit_real y0 /\ unit_real y1).
Proof.
  destruct (c25_fits_exact R _ _ _ 2 (square_spline x0 x1 y0 y1)) as (b & E & H); [apply square_rectangle|].
  exists b. split; [auto|]. rewrite H. clear. split.
  - intros A.
    assert (B : forall p k, In p (control_points (square_spline x0 x1 y0 y1)) -> (k < 2)%nat -> unit_real (coord 2 p k))
      by (intros; apply in_unit_real; auto). clear A.
    pose proof (B (Point2D x0 y0) 0%nat (or_introl eq_refl) ltac:(lia)).
    pose proof (B (Point2D x0 y0) 1%nat (or_introl eq_refl) ltac:(lia)).
    pose proof (B (Point2D x1 y1) 0%nat (or_intror (or_intror (or_intror (or_introl eq_refl)))) ltac:(lia)).
    pose proof (B (Point2D x1 y1) 1%nat (or_intror (or_intror (or_intror (or_introl eq_refl)))) ltac:(lia)).
    cbn in *. tauto.
  - intros (A & B & C & D) p k Hp Hk. apply in_unit_real. cbn in Hp. destruct k as [|[|k]]; [| |lia];
    destruct Hp as [<-|[<-|[<-|[<-|[]]]]]; cbn; auto.
Qed.

Lemma c80_tile_fits : forall (t : R) (tiles : list (spline (point R 2))), SimpleCrossTile t = Ok tiles ->
  (Forall (fun s => FitsIntoUnitCube s = Ok true) tiles <-> -1 <= t <= 1) /\
  (-1 <= t <= 1 \/ Forall (fun s => FitsIntoUnitCube s = Ok false) tiles).
Proof.
  intros t tiles E. rewrite SimpleCrossTile_ok in E. apply Ok_inj in E. subst tiles.
  set (lo := / 2 - / 2 * t). set (hi := / 2 + / 2 * t).
  destruct (square_fits lo hi lo hi) as (b1 & E1 & H1). destruct (square_fits 0 lo lo hi) as (b2 & E2 & H2).
  destruct (square_fits hi 1 lo hi) as (b3 & E3 & H3). destruct (square_fits lo hi 0 lo) as (b4 & E4 & H4).
  destruct (square_fits lo hi hi 1) as (b5 & E5 & H5). unfold unit_real in *.
  assert (T : -1 <= t <= 1 <-> 0 <= lo <= 1 /\ 0 <= hi <= 1) by (unfold lo, hi; lra).
  assert (A : forall b : bool, Ok b = Ok true <-> b = true) by (intros b; split; [intros X; injection X; auto|intros ->; auto]).
  assert (A' : forall b : bool, Ok b = Ok false <-> b <> true) by (intros [|]; split; congruence).
  rewrite T. clearbody lo hi. clear T. rewrite !Forall_cons_iff, E1, E2, E3, E4, E5, !A, !A', H1, H2, H3, H4, H5.
  assert (N : forall X, Forall X (nil : list (spline (point R 2))) <-> True) by (intros; split; auto).
  rewrite !N. split; [split; [tauto|intros; repeat split; lra]|]. destruct (Rle_dec 0 lo); destruct (Rle_dec lo 1);
    destruct (Rle_dec 0 hi); destruct (Rle_dec hi 1); try (right; repeat split; lra); left; lra.
Qed.

Lemma rect_image x0 x1 y0 y1 s x y : rectangle x0 x1 y0 y1 s -> x0 <= x1 -> y0 <= y1 ->
  (exists u v, unit_real u /\ unit_real v /\ Evaluate s [u; v] = Ok (Point2D x y)) <-> x0 <= x <= x1 /\ y0 <= y <= y1.
Proof.
  intros (_ & _ & HE) HX HY. unfold unit_real. split.
  - intros (u & v & Hu & Hv & E). rewrite HE in E. apply Ok_inj in E. injection E as <- <-. nra.
  - intros (Hx & Hy).
    assert (K : forall a b z, a <= b -> a <= z <= b -> exists u, 0 <= u <= 1 /\ a + (b - a) * u = z).
    { intros a b z Hab Hz. destruct (Req_dec a b) as [->|N]; [exists 0; lra|].
      exists ((z - a) / (b - a)). split; [|field; lra].
      split; [apply Rmult_le_reg_r with (b - a)|apply Rmult_le_reg_r with (b - a)]; try lra;
      (replace ((z - a) / (b - a) * (b - a)) with (z - a) by (field; lra)); lra. }
    destruct (K x0 x1 x HX Hx) as (u & Hu & <-). destruct (K y0 y1 y HY Hy) as (v & Hv & <-).
    exists u, v. rewrite HE. auto.
Qed.

Lemma c80_cross : forall (t : R) (tiles : list (spline (point R 2))), SimpleCrossTile t = Ok tiles -> 0 <= t <= 1 ->
  forall x y, in_cross t x y <->
    exists s u v, In s tiles /\ unit_real u /\ unit_real v /\ Evaluate s [u; v] = Ok (Point2D x y).
Proof.
  intros t tiles E Ht x y. destruct (c80_tile t) as (c & l & r & d & u & E' & Hc & Hl & Hr & Hd & Hu). cbv zeta in *.
  rewrite E' in E. apply Ok_inj in E. subst tiles.
  assert (S : (exists s a b, In s [c; l; r; d; u] /\ unit_real a /\ unit_real b /\ Evaluate s [a; b] = Ok (Point2D x y)) <->
    exists s, In s [c; l; r; d; u] /\ exists a b, unit_real a /\ unit_real b /\ Evaluate s [a; b] = Ok (Point2D x y)).
  { split; [intros (s & a & b & A & B)|intros (s & A & a & b & B)]; eauto 10. }
  rewrite S. clear S.
  pose proof (rect_image _ _ _ _ _ x y Hc ltac:(lra) ltac:(lra)) as Ic.
  pose proof (rect_image _ _ _ _ _ x y Hl ltac:(lra) ltac:(lra)) as Il.
  pose proof (rect_image _ _ _ _ _ x y Hr ltac:(lra) ltac:(lra)) as Ir.
  pose proof (rect_image _ _ _ _ _ x y Hd ltac:(lra) ltac:(lra)) as Id.
  pose proof (rect_image _ _ _ _ _ x y Hu ltac:(lra) ltac:(lra)) as Iu.
  unfold in_cross. unfold unit_real in *. split.
  - intros A. assert (A' : (- (t / 2) <= x - / 2 <= t / 2 /\ 0 <= y <= 1) \/ (- (t / 2) <= y - / 2 <= t / 2 /\ 0 <= x <= 1)).
    { destruct A as [(A & B)|(A & B)]; [left|right]; split; auto; apply Rabs_bounds in A; auto. }
    clear A. destruct A' as [A|A]; destruct (Rle_dec x (/ 2 - t / 2)); destruct (Rle_dec (/ 2 + t / 2) x);
      destruct (Rle_dec y (/ 2 - t / 2)); destruct (Rle_dec (/ 2 + t / 2) y).
    all: first
      [ exists c; split; [cbn; tauto|apply Ic; lra] | exists l; split; [cbn; tauto|apply Il; lra]
      | exists r; split; [cbn; tauto|apply Ir; lra] | exists d; split; [cbn; tauto|apply Id; lra]
      | exists u; split; [cbn; tauto|apply Iu; lra] ].
  - intros (s & Hs & HV). cbn in Hs. destruct Hs as [<-|[<-|[<-|[<-|[<-|[]]]]]].
    + apply Ic in HV. left. split; [apply Rabs_bounds|unfold unit_real]; lra.
    + apply Il in HV. right. split; [apply Rabs_bounds|unfold unit_real]; lra.
    + apply Ir in HV. right. split; [apply Rabs_bounds|unfold unit_real]; lra.
    + apply Id in HV. left. split; [apply Rabs_bounds|unfold unit_real]; lra.
    + apply Iu in HV. left. split; [apply Rabs_bounds|unfold unit_real]; lra.
Qed.

Lemma c80_disjoint : forall (t : R) (tiles : list (spline (point R 2))), SimpleCrossTile t = Ok tiles -> 0 < t < 1 ->
  forall i j si sj u v u' v' p, nth_error tiles i = Some si -> nth_error tiles j = Some sj ->
    0 < u < 1 -> 0 < v < 1 -> 0 < u' < 1 -> 0 < v' < 1 ->
    Evaluate si [u; v] = Ok p -> Evaluate sj [u'; v'] = Ok p -> i = j /\ u = u' /\ v = v'.
Proof.
  intros t tiles E Ht i j si sj u v u' v' p Hi Hj Hu Hv Hu' Hv' Ei Ej.
  destruct (c80_tile t) as (cc & cl & cr & cd & cu & E' & Hc & Hl & Hr & Hd & Hup). cbv zeta in *.
  rewrite E' in E. apply Ok_inj in E. subst tiles.
  assert (K : forall k s, nth_error [cc; cl; cr; cd; cu] k = Some s -> exists x0 x1 y0 y1, rectangle x0 x1 y0 y1 s /\
    ((k = 0%nat /\ x0 = / 2 - t / 2 /\ x1 = / 2 + t / 2 /\ y0 = / 2 - t / 2 /\ y1 = / 2 + t / 2) \/
     (k = 1%nat /\ x0 = 0 /\ x1 = / 2 - t / 2 /\ y0 = / 2 - t / 2 /\ y1 = / 2 + t / 2) \/
     (k = 2%nat /\ x0 = / 2 + t / 2 /\ x1 = 1 /\ y0 = / 2 - t / 2 /\ y1 = / 2 + t / 2) \/
     (k = 3%nat /\ x0 = / 2 - t / 2 /\ x1 = / 2 + t / 2 /\ y0 = 0 /\ y1 = / 2 - t / 2) \/
     (k = 4%nat /\ x0 = / 2 - t / 2 /\ x1 = / 2 + t / 2 /\ y0 = / 2 + t / 2 /\ y1 = 1))).
  { intros k s Hk. destruct k as [|[|[|[|[|k]]]]]; cbn in Hk; [injection Hk as <-..|destruct k; discriminate];
      do 4 eexists; (split; [eassumption|]); tauto. }
  destruct (K _ _ Hi) as (a0 & a1 & b0 & b1 & (_ & _ & Ri) & Ci).
  destruct (K _ _ Hj) as (c0 & c1 & d0 & d1 & (_ & _ & Rj) & Cj).
  rewrite Ri in Ei. rewrite Rj in Ej. rewrite <- Ej in Ei. apply Ok_inj in Ei. injection Ei as EX EY. clear K Hi Hj Ri Rj Ej E'.
  assert (S : forall a b w, a < b -> 0 < w < 1 -> a < a + (b - a) * w < b) by (intros; nra).
  assert (A0 : a0 < a1 /\ b0 < b1 /\ c0 < c1 /\ d0 < d1)
    by (destruct Ci as [Ci|[Ci|[Ci|[Ci|Ci]]]]; destruct Cj as [Cj|[Cj|[Cj|[Cj|Cj]]]]; lra). destruct A0 as (A0 & B0 & C0 & D0).
  pose proof (S a0 a1 u A0 Hu). pose proof (S b0 b1 v B0 Hv). pose proof (S c0 c1 u' C0 Hu'). pose proof (S d0 d1 v' D0 Hv').
  assert (I : i = j).
  { destruct Ci as [Ci|[Ci|[Ci|[Ci|Ci]]]]; destruct Cj as [Cj|[Cj|[Cj|[Cj|Cj]]]];
      destruct Ci as (-> & Ci); destruct Cj as (-> & Cj); try reflexivity; exfalso; lra. }
  split; [exact I|]. subst j.
  assert (Q : a0 = c0 /\ a1 = c1 /\ b0 = d0 /\ b1 = d1).
  { destruct Ci as [Ci|[Ci|[Ci|[Ci|Ci]]]]; destruct Cj as [Cj|[Cj|[Cj|[Cj|Cj]]]];
      destruct Ci as (-> & Ci); destruct Cj as (Ej & Cj); try discriminate Ej; lra. }
  destruct Q as (-> & -> & -> & ->).
  split; [apply Rmult_eq_reg_l with (c1 - c0)|apply Rmult_eq_reg_l with (d1 - d0)]; lra.
Qed.

Lemma c80_ring : forall (innerR outerR arc : R) (n : nat), (0 < n)%nat -> - PI < arc / INR n < PI ->
  exists segs, CircleGroup innerR outerR n arc = Ok segs /\ length segs = n /\
    forall k r, nth_error segs k = Some r -> ring_segment innerR outerR (arc / INR n) k r.
Proof.
  intros innerR outerR arc n Hn Hd. pose proof (half_angle _ Hd) as Hc.
  eexists. split; [apply CircleGroup_ok; [auto|lra]|]. rewrite map_length, seq_length. split; [auto|].
  intros k r Hr. rewrite nth_error_map in Hr. destruct (nth_error (seq 0 n) k) as [k'|] eqn:E; [|discriminate].
  assert (k < n)%nat by (rewrite <- (seq_length n 0); apply nth_error_Some; congruence).
  rewrite nth_error_nth' with (d := 0%nat) in E by (rewrite seq_length; auto).
  rewrite seq_nth in E by auto. cbn in E. injection E as <-. injection Hr as <-. apply segment_ring. exact Hd.
Qed.

Lemma ring_nth innerR outerR arc n segs k r : (0 < n)%nat -> - PI < arc / INR n < PI ->
  CircleGroup innerR outerR n arc = Ok segs -> nth_error segs k = Some r ->
  (k < n)%nat /\ let d := arc / INR n in r = segment innerR outerR d (/ cos (d / 2)) (cos (d / 2)) (INR k).
Proof.
  intros Hn Hd E Hr. pose proof (half_angle _ Hd) as Hc. rewrite CircleGroup_ok in E by (auto; lra).
  apply Ok_inj in E. subst segs. rewrite nth_error_map in Hr. destruct (nth_error (seq 0 n) k) as [k'|] eqn:E; [|discriminate].
  assert (k < n)%nat by (rewrite <- (seq_length n 0); apply nth_error_Some; congruence). split; [auto|].
  rewrite nth_error_nth' with (d := 0%nat) in E by (rewrite seq_length; auto).
  rewrite seq_nth in E by auto. cbn in E. injection E as <-. injection Hr as <-. reflexivity.
Qed.

Lemma c80_joins : forall (innerR outerR arc : R) (n : nat) segs, (0 < n)%nat -> - PI < arc / INR n < PI ->
  CircleGroup innerR outerR n arc = Ok segs ->
  forall k r, nth_error segs k = Some r -> forall v,
    R_Evaluate r [0; v] = Ok (polar ((1 - v) * outerR + v * innerR) (arc / INR n * INR k)) /\
    R_Evaluate r [1; v] = Ok (polar ((1 - v) * outerR + v * innerR) (arc / INR n * INR (S k))) /\
    (forall r', nth_error segs (S k) = Some r' -> R_Evaluate r' [0; v] = R_Evaluate r [1; v]) /\
    (forall r' z, nth_error segs 0 = Some r' -> S k = n -> arc = 2 * IZR z * PI ->
       R_Evaluate r' [0; v] = R_Evaluate r [1; v]).
Proof.
  intros innerR outerR arc n segs Hn Hd E k r Hr v. pose proof (half_angle _ Hd) as Hc.
  destruct (ring_nth _ _ _ _ _ _ _ Hn Hd E Hr) as (Hk & ->). set (d := arc / INR n) in *. cbv zeta.
  destruct (segment_ends innerR outerR d _ (INR k) v eq_refl ltac:(lra)) as (E0 & E1). rewrite <- S_INR in E1.
  rewrite E0, E1. do 2 (split; [reflexivity|]). split.
  - intros r' Hr'. destruct (ring_nth _ _ _ _ _ _ _ Hn Hd E Hr') as (_ & ->). fold d. cbv zeta.
    apply (segment_ends innerR outerR d _ (INR (S k)) v eq_refl ltac:(lra)).
  - intros r' z Hr' HS HA. destruct (ring_nth _ _ _ _ _ _ _ Hn Hd E Hr') as (_ & ->). fold d. cbv zeta.
    destruct (segment_ends innerR outerR d _ (INR 0) v eq_refl ltac:(lra)) as (F0 & _). rewrite F0.
    rewrite HS. replace (d * INR n) with arc by (unfold d; field; apply not_0_INR; lia). rewrite HA.
    cbn [INR]. rewrite Rmult_0_r. unfold polar.
    replace (2 * IZR z * PI) with (2 * (IZR z * PI)) by ring.
    rewrite cos_2a_sin, sin_2a, (sin_eq_0_1 (IZR z * PI)) by (exists z; reflexivity). rewrite cos_0, sin_0.
    do 2 f_equal; ring.
Qed.
(** A whole circle needs three segments: with two the weight vanishes, with one the weight function
    has a zero. *)
Lemma c80_few_segments : forall innerR outerR : R,
  CircleGroup innerR outerR 2 (2 * PI) = NonFinite /\
  exists r, CircleGroup innerR outerR 1 (2 * PI) = Ok [r] /\ forall v, R_Evaluate r [/ 2; v] = NonFinite.
Proof.
  intros innerR outerR. split.
  - unfold CircleGroup. rewrite divS_ok.
    2:{ cbn. lra. }
    cbn [Nat.eqb]. rewrite bind_Ok.
    replace (sin (PI / 2 - @sdiv R SOps_R (2 * PI) (sofnat 2) / 2)) with 0.
    2:{ cbn. replace (PI / 2 - 2 * PI / 2 / 2) with 0 by field. rewrite sin_0. reflexivity. }
    unfold divS. cbn [seqb s0 SOps_R]. change R0 with 0. destruct (Req_EM_T 0 0); [reflexivity|congruence].
  - assert (EC : cos (2 * PI / INR 1 / 2) = - 1).
    { replace (2 * PI / INR 1 / 2) with PI by (cbn; field). apply cos_PI. }
    eexists. split; [rewrite CircleGroup_ok by (auto; rewrite EC; lra); reflexivity|].
    intros v. cbn [INR].
    destruct (segment_parts innerR outerR (2 * PI / 1) (cos (2 * PI / INR 1 / 2)) 0 (/ 2) v) as (E1 & E2);
      [reflexivity|rewrite EC; lra|]. cbn [INR] in *. unfold R_Evaluate. rewrite E1, E2, !bind_Ok.
    unfold arcW. rewrite EC. unfold vdiv, divS. cbn [seqb s0 SOps_R].
    replace ((1 - / 2) * (1 - / 2) + 2 * (/ 2 * (1 - / 2)) * -1 + / 2 * / 2) with 0 by field.
    change R0 with 0. destruct (Req_EM_T 0 0); [reflexivity|congruence].
Qed.

Lemma get_some {A} (l : list A) i a : nth_error l i = Some a -> get l i = Ok a.
Proof. intros H. unfold get. rewrite H. reflexivity. Qed.

Lemma compose_all_ok MAXB defs tiles :
  (forall d t, In d defs -> In t tiles -> exists c, Compose_RP MAXB d t = Ok c) ->
  exists out, compose_all MAXB defs tiles = Ok out /\ length out = (length defs * length tiles)%nat /\
    forall i j d t, nth_error defs i = Some d -> nth_error tiles j = Some t ->
      exists c, nth_error out (i * length tiles + j) = Some c /\ Compose_RP MAXB d t = Ok c.
Proof.
  intros HC. unfold compose_all. set (m := length tiles).
  edestruct (for_up_inv (fun i (out : list (rspline R (point R 2))) => length out = (i * m)%nat /\
    forall i' j d t, (i' < i)%nat -> nth_error defs i' = Some d -> nth_error tiles j = Some t ->
      exists c, nth_error out (i' * m + j) = Some c /\ Compose_RP MAXB d t = Ok c)) as (out & E & HL & HN).
  3:{ exists out. split; [exact E|]. split; [exact HL|]. intros i j d t Hd Ht. apply HN; auto.
      apply nth_error_Some. congruence. }
  - split; auto. intros; lia.
  - cbv beta. intros i out Hi (HL & HN).
    destruct (nth_error defs i) as [d|] eqn:Ed; [|apply nth_error_None in Ed; lia].
    rewrite (get_some _ _ _ Ed), bind_Ok.
    edestruct (for_up_inv (fun j (o : list (rspline R (point R 2))) => exists l, o = out ++ l /\ length l = j /\
      forall j' t, (j' < j)%nat -> nth_error tiles j' = Some t ->
        exists c, nth_error l j' = Some c /\ Compose_RP MAXB d t = Ok c)) as (o & E & l & -> & HLl & HNl).
    3:{ rewrite E. eexists. split; [reflexivity|]. rewrite app_length. fold m in HLl. split; [rewrite Nat.mul_succ_l; lia|].
        intros i' j d' t Hi' Hd' Ht.
        assert (Hj : (j < m)%nat) by (apply nth_error_Some; congruence).
        destruct (Nat.eq_dec i' i) as [->|Ne].
        - rewrite nth_error_app2 by lia. replace (i * m + j - length out)%nat with j by lia.
          rewrite Ed in Hd'. injection Hd' as <-. apply HNl; auto.
        - rewrite nth_error_app1 by (rewrite HL; nia). apply (HN i'); auto. lia. }
    + exists []. rewrite app_nil_r. repeat split. intros; lia.
    + cbv beta. intros j o Hj (l & -> & HLl & HNl).
      destruct (nth_error tiles j) as [t|] eqn:Et; [|apply nth_error_None in Et; lia].
      rewrite (get_some _ _ _ Et), bind_Ok.
      destruct (HC d t) as (c & Ec); [eapply nth_error_In; eassumption..|]. rewrite Ec, bind_Ok.
      eexists. split; [reflexivity|]. exists (l ++ [c]). split; [symmetry; apply app_assoc|].
      split; [rewrite app_length, HLl; apply Nat.add_1_r|]. intros j' t' Hj' Ht'. destruct (Nat.eq_dec j' j) as [->|Ne].
      * rewrite nth_error_app2 by lia. rewrite HLl, Nat.sub_diag. rewrite Et in Ht'. injection Ht' as <-. cbn. eauto.
      * rewrite nth_error_app1 by lia. apply HNl; auto. lia.
Qed.

Lemma tile_in t tiles s : SimpleCrossTile t = Ok tiles -> -1 <= t <= 1 -> In s tiles ->
  wf s /\ degrees s = [1; 1]%nat /\ (forall p k, In p (control_points s) -> (k < 2)%nat -> in_unit (coord 2 p k)) /\
  exists x0 x1 y0 y1, rectangle x0 x1 y0 y1 s /\ unit_real x0 /\ unit_real x1 /\ unit_real y0 /\ unit_real y1.
Proof.
  intros E Ht Hs. pose proof (proj1 (c80_tile_fits t tiles E)) as HF. rewrite Forall_forall in HF.
  pose proof (proj2 HF Ht _ Hs) as Fs. cbv beta in Fs.
  assert (RR : exists x0 x1 y0 y1, rectangle x0 x1 y0 y1 s /\ unit_real x0 /\ unit_real x1 /\ unit_real y0 /\ unit_real y1).
  { destruct (c80_tile t) as (cc & cl & cr & cd & cu & E' & Hc & Hl & Hr & Hd & Hup). cbv zeta in *.
    rewrite E' in E. apply Ok_inj in E. subst tiles. unfold unit_real in *.
    destruct Hs as [<-|[<-|[<-|[<-|[<-|[]]]]]]; do 4 eexists; (split; [eassumption|]); lra. }
  destruct RR as (x0 & x1 & y0 & y1 & RR & U). pose proof RR as (W & D & _). do 2 (split; [auto|]). split; [|eauto 10].
  destruct (c25_fits_exact R _ _ _ 2 s W) as (b & Eb & Hb). rewrite Eb in Fs. apply Ok_inj in Fs. apply Hb. exact Fs.
Qed.

Lemma compose_segment MAXB innerR outerR delta k r s t tiles : (3 < MAXB <= 68)%nat ->
  ring_segment innerR outerR delta k r -> SimpleCrossTile t = Ok tiles -> -1 <= t <= 1 -> In s tiles ->
  exists c, Compose_RP MAXB r s = Ok c /\ rwf c /\ rdegrees c = [3; 3]%nat /\
    forall u v, exists x y, Evaluate s [u; v] = Ok (Point2D x y) /\ R_Evaluate c [u; v] = R_Evaluate r [x; y].
Proof.
  intros HM HR E Ht Hs. destruct HR as (Rw & Rd & _). destruct (tile_in t tiles s E Ht Hs) as (W & D & HU & _).
  destruct r as [num den]. unfold rdegrees in Rd. cbn in Rd. destruct num as [dg nn off cps]. cbn in Rd. subst dg.
  edestruct (c30_rational_of_polynomial R (point R 2) _ _ _ _ _ MAXB (mkR (mkSpline [2; 1]%nat nn off cps) den) s)
    as (c & Ec & Wc & Dc & HV).
  - lia.
  - exact Rw.
  - exact W.
  - exact HU.
  - eapply eq_ind_r with (x := [1; 1]%nat); [|exact D]. cbn. repeat constructor; lia.
  - cbn. repeat constructor; lia.
  - exists c. split; [exact Ec|]. split; [exact Wc|]. split; [rewrite Dc; exact (f_equal (map (fun p => 3 * p)%nat) D)|].
    intros u v. destruct (HV [u; v]) as ((x & y & []) & Ep & EV & _); [exact (eq_sym (f_equal (@length nat) D))|].
    exists x, y. split; [exact Ep|]. rewrite EV. reflexivity.
Qed.

Lemma c80_composition : forall (MAXB : nat) (innerR outerR arc t : R) (n : nat) segs tiles,
  (3 < MAXB <= 68)%nat -> (0 < n)%nat -> - PI < arc / INR n < PI -> -1 <= t <= 1 ->
  CircleGroup innerR outerR n arc = Ok segs -> SimpleCrossTile t = Ok tiles ->
  exists out, compose_all MAXB segs tiles = Ok out /\ length out = (5 * n)%nat /\
    forall k j r s, nth_error segs k = Some r -> nth_error tiles j = Some s ->
      exists c, nth_error out (5 * k + j) = Some c /\ rwf c /\ rdegrees c = [3; 3]%nat /\
        forall u v, exists x y, Evaluate s [u; v] = Ok (Point2D x y) /\ R_Evaluate c [u; v] = R_Evaluate r [x; y].
Proof.
  intros MAXB innerR outerR arc t n segs tiles HM Hn Hd Ht ES ET.
  destruct (c80_ring innerR outerR arc n Hn Hd) as (segs' & ES' & HL & HR). rewrite ES' in ES. apply Ok_inj in ES. subst segs'.
  assert (L5 : length tiles = 5%nat) by (rewrite SimpleCrossTile_ok in ET; apply Ok_inj in ET; subst; reflexivity).
  assert (HC : forall d s, In d segs -> In s tiles -> exists c, Compose_RP MAXB d s = Ok c).
  { intros d s Hi Hs. apply In_nth_error in Hi. destruct Hi as (k & Hk).
    destruct (compose_segment MAXB _ _ _ _ _ s t tiles HM (HR _ _ Hk) ET Ht Hs) as (c & Ec & _). eauto. }
  destruct (compose_all_ok MAXB segs tiles HC) as (out & EO & LO & HO).
  exists out. split; [exact EO|]. split; [rewrite LO, HL, L5; lia|].
  intros k j r s Hk Hj. destruct (HO k j r s Hk Hj) as (c & Hc & Ec). rewrite L5 in Hc.
  exists c. split; [rewrite <- Hc; f_equal; lia|].
  destruct (compose_segment MAXB _ _ _ _ _ s t tiles HM (HR _ _ Hk) ET Ht (nth_error_In _ _ Hj)) as (c' & Ec' & H).
  rewrite Ec in Ec'. apply Ok_inj in Ec'. subst c'. exact H.
Qed.

(** The 20 splines of the program fill exactly the crosses in the ring. *)
Lemma c80_program : forall MAXB : nat, (3 < MAXB <= 68)%nat ->
  exists out segs, microstructure MAXB = Ok out /\ length out = 20%nat /\ Forall rwf out /\
    Forall (fun c => rdegrees c = [3; 3]%nat) out /\ CircleGroup 1 2 4 (2 * PI) = Ok segs /\
    (forall c u v, In c out -> unit_real u -> unit_real v ->
       exists rho a, R_Evaluate c [u; v] = Ok (polar rho a) /\ 1 <= rho <= 2) /\
    (forall p, (exists c u v, In c out /\ unit_real u /\ unit_real v /\ R_Evaluate c [u; v] = Ok p) <->
       (exists r x y, In r segs /\ in_cross (3 / 10) x y /\ R_Evaluate r [x; y] = Ok p)).
Proof.
  intros MAXB HM.
  assert (Hd : - PI < 2 * PI / INR 4 < PI) by (pose proof PI_RGT_0; replace (INR 4) with 4 by (cbn; ring); lra).
  destruct (c80_ring 1 2 (2 * PI) 4 ltac:(lia) Hd) as (segs & ES & HL & HR).
  destruct (c80_tile (3 / 10)) as (cc & cl & cr & cd & cu & ET & _). set (tiles := [cc; cl; cr; cd; cu]) in *.
  destruct (c80_composition MAXB 1 2 (2 * PI) (3 / 10) 4 segs tiles HM ltac:(lia) Hd ltac:(lra) ES ET) as (out & EO & LO & HO).
  assert (HT : forall x y, in_cross (3 / 10) x y <-> _) by (apply (c80_cross (3 / 10) tiles ET); lra).
  assert (HX : forall c, In c out -> exists k j r s, nth_error segs k = Some r /\ nth_error tiles j = Some s /\
     rwf c /\ rdegrees c = [3; 3]%nat /\ forall u v, exists x y, Evaluate s [u; v] = Ok (Point2D x y) /\
       R_Evaluate c [u; v] = R_Evaluate r [x; y]).
  { intros c Hc. apply In_nth_error in Hc. destruct Hc as (q & Hq).
    assert (Hlt : (q < 5 * 4)%nat) by (rewrite <- LO; apply nth_error_Some; congruence).
    pose proof (Nat.div_mod q 5 ltac:(lia)). pose proof (Nat.mod_upper_bound q 5 ltac:(lia)).
    destruct (nth_error segs (q / 5)) as [r|] eqn:Er.
    2:{ apply nth_error_None in Er. rewrite HL in Er. lia. }
    destruct (nth_error tiles (q mod 5)) as [s|] eqn:Es.
    2:{ apply nth_error_None in Es. change (length tiles) with 5%nat in Es. lia. }
    exists (q / 5)%nat, (q mod 5), r, s. do 2 (split; [auto|]).
    destruct (HO _ _ _ _ Er Es) as (c' & Hc' & P). rewrite <- H in Hc'. rewrite Hq in Hc'. injection Hc' as <-. exact P. }
  exists out, segs. split; [unfold microstructure; rewrite ET, bind_Ok, ES, bind_Ok; exact EO|]. split; [exact LO|].
  split; [apply Forall_forall; intros c Hc; destruct (HX c Hc) as (? & ? & ? & ? & ? & ? & ? & _); auto|].
  split; [apply Forall_forall; intros c Hc; destruct (HX c Hc) as (? & ? & ? & ? & ? & ? & ? & ? & _); auto|].
  split; [exact ES|]. split.
  - intros c u v Hc Hu Hv. destruct (HX c Hc) as (k & j & r & s & Hk & Hj & _ & _ & HV).
    destruct (HV u v) as (x & y & Es & ->). 
    assert (XY : unit_real x /\ unit_real y).
    { destruct (tile_in (3 / 10) tiles s ET ltac:(lra) (nth_error_In _ _ Hj)) as (_ & _ & _ & x0 & x1 & y0 & y1 & (_ & _ & RE) & U).
      rewrite RE in Es. apply Ok_inj in Es. injection Es as <- <-. unfold unit_real in *. split; nra. }
    destruct (HR k r Hk) as (_ & _ & HI & _). destruct (HI x y (proj1 XY)) as (l & Hl & ->).
    do 2 eexists. split; [reflexivity|]. unfold unit_real in *. lra.
  - intros p. split.
    + intros (c & u & v & Hc & Hu & Hv & E). destruct (HX c Hc) as (k & j & r & s & Hk & Hj & _ & _ & HV).
      destruct (HV u v) as (x & y & Es & E'). exists r, x, y. split; [eapply nth_error_In; eauto|].
      split; [|congruence]. apply HT. exists s, u, v. split; [eapply nth_error_In; eauto|auto].
    + intros (r & x & y & Hr & HXY & E). apply HT in HXY. destruct HXY as (s & u & v & Hs & Hu & Hv & Es).
      apply In_nth_error in Hr. destruct Hr as (k & Hk). apply In_nth_error in Hs. destruct Hs as (j & Hj).
      destruct (HO k j r s Hk Hj) as (c & Hc & _ & _ & HV). destruct (HV u v) as (x' & y' & Es' & EV).
      rewrite Es in Es'. apply Ok_inj in Es'. injection Es' as <- <-.
      exists c, u, v. split; [eapply nth_error_In; eauto|]. rewrite EV. auto.
Qed.
