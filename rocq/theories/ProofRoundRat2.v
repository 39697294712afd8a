(** Error propagation through products, sums and compositions of rational splines with positive weights. *)
From Coq Require Import Arith Lia List ZArith NArith Bool Reals Lra Psatz.
From Verif Require Import Prelude Scalar Spec SpecSpline SpecRational Sums Order Coord ModelBasis ModelSpline ModelRational
  ModelRound ModelRoundMul SpecRound SpecRoundMul ProofIndex ProofBasis ProofEval ProofElevate ProofArith ProofSplit ProofMul ProofCompose
  ProofRational ProofRational2 ProofCasteljau ProofRaw ProofRound ProofRoundEval ProofRoundOps ProofRawMul ProofRoundMul ProofRoundCompose
  ClaimsB ClaimsE ClaimsU ClaimsX ClaimsRoundOps ClaimsRoundMul ModelRoundRat SpecRoundRat ProofRoundRat.
Import ListNotations.
Local Open Scope R_scope.

(** ** Sums and differences of splines of equal degrees, for any arithmetic *)
Section Same.
Context {T V : Type} {o : SOps T} {ov : VOps T V}.
Definition combined_with (op : V -> V -> V) (a b : spline V) : spline V := with_cps a (map2 op (control_points a) (control_points b)).
Lemma same_elev fuel (a b : spline V) : degrees b = degrees a -> (0 < fuel)%nat -> elevate_all (o := o) (ov := ov) fuel (degrees b) a = Ok a.
Proof. intros H Hf. apply (elevate_all_noop (o := o) (ov := ov)); auto; [congruence|]. rewrite H. apply le_degs_refl. Qed.
Lemma add_raw fuel (a b : spline V) : wf a -> wf b -> degrees b = degrees a -> (2 <= fuel)%nat ->
  spline_add (o := o) (ov := ov) fuel a b = Ok (combined_with (vadd (VOps := ov)) a b) /\ spline_add_assign (o := o) (ov := ov) fuel a b = Ok (combined_with (vadd (VOps := ov)) a b) /\
  spline_sub (o := o) (ov := ov) fuel a b = Ok (combined_with (vsub (VOps := ov)) a b) /\ spline_sub_assign (o := o) (ov := ov) fuel a b = Ok (combined_with (vsub (VOps := ov)) a b).
Proof.
  intros Ha Hb Hd Hf. pose proof Ha as (Hne & Hn & Ho & HL). pose proof Hb as (_ & Hnb & Hob & HLb).
  assert (Hcopy : Spline_deg_points (degrees a) (control_points a) = Ok a).
  { rewrite Spline_deg_points_ok by apply Ha. now rewrite <- wf_eq_mk. }
  assert (EA : elevate_all (o := o) (ov := ov) fuel (degrees b) a = Ok a) by (apply same_elev; auto; lia).
  assert (EB : elevate_all (o := o) (ov := ov) fuel (degrees a) b = Ok b) by (apply same_elev; auto; lia).
  assert (EC : forall op, combine_assign op (number_of_control_points a) a b = Ok (combined_with op a b)).
  { intros op. apply (combine_assign_ok (ov := ov)); congruence. }
  unfold spline_add, spline_add_assign, spline_sub, spline_sub_assign. split; [|split; [|split]].
  - destruct fuel as [|fuel]; [lia|]. cbn [spline_add_rec]. rewrite Hcopy. cbn [bind].
    destruct (needs_copy_ok a b ltac:(congruence)) as (x & -> & _ & Hx). cbn [bind]. rewrite EA. cbn [bind].
    rewrite Hx by (rewrite Hd; apply le_degs_refl). cbn [negb]. apply EC.
  - rewrite EA. cbn [bind]. rewrite EB. cbn [bind]. apply EC.
  - rewrite Hcopy. cbn [bind]. edestruct (for_up_inv (fun (_ : nat) (y : spline V) => y = a)) as (y & E & Hy).
    3:{ rewrite E. subst y. cbn [bind]. rewrite EB. cbn [bind]. apply EC. }
    + reflexivity.
    + intros k y Hk ->. rewrite (get_ok 0%nat) by (rewrite Hd; lia). cbn [bind]. rewrite (get_ok 0%nat) by lia. cbn [bind]. exists a. split; auto.
      destruct fuel as [|fuel]; [lia|]. cbn [while_]. rewrite Hd, Nat.ltb_irrefl. reflexivity.
  - rewrite EA. cbn [bind]. rewrite EB. cbn [bind]. apply EC.
Qed.
Lemma combined_with_wf op (a b : spline V) : wf a -> wf b -> degrees b = degrees a -> wf (combined_with op a b).
Proof. intros (A & B & C & D) (A' & B' & C' & D') H. apply with_cps_wf; [split; auto|]. rewrite length_map2; congruence. Qed.
End Same.

(** ** Products *)
Lemma rprod_scal (B : R) ms : forall ns ks fac C (F G : nat -> R),
  rprod (T := R) (V3 := R) (fun a b => B * (a * b)) fac (B * C) ms ns ks F G = B * rprod (T := R) (V3 := R) smul fac C ms ns ks F G.
Proof.
  induction ms as [|m ms IH]; intros [|n ns] [|k ks] fac C F G; cbn [rprod]; auto.
  revert C. induction (seq _ _) as [|i l IHl]; intros C; cbn [fold_left]; auto. rewrite <- IHl. f_equal.
  destruct ms; [cbn; ring|]. apply IH.
Qed.
Lemma rcoef_pos m n k i : (k <= m + n)%nat -> (k - n <= i <= min k m)%nat -> 0 < rcoef (T := R) m n k i.
Proof.
  intros Hk Hi. unfold rcoef. cbn [sdiv sofN SOps_R]. apply Rdiv_lt_0_compat.
  - apply IZR_lt. pose proof (binom_pos m i ltac:(lia)). pose proof (binom_pos n (k - i) ltac:(lia)). nia.
  - apply IZR_lt. pose proof (binom_pos (m + n) k ltac:(lia)). lia.
Qed.
Lemma rprod_pos ms : ms <> [] -> forall ns ks fac c (F G : nat -> R), length ns = length ms -> valid_index (map2 Nat.add ms ns) ks ->
  0 < fac -> (forall i, (i < n_coeffs ms)%nat -> 0 < F i) -> (forall i, (i < n_coeffs ns)%nat -> 0 < G i) ->
  c < rprod (T := R) (V3 := R) smul fac c ms ns ks F G.
Proof.
  induction ms as [|m ms IH]; [congruence|]. intros _ [|n ns] [|k ks] fac c F G HL HK Hfac HF HG; try discriminate; try (inversion HK; fail).
  cbn [map2] in HK. inversion HK as [|? ? ? ? Hk HK']; subst. cbn [rprod].
  rewrite n_coeffs_cons in HF, HG.
  assert (St : forall c i, (k - n <= i <= min k m)%nat ->
    c < match ms with [] => vadd (V := R) c (vscale (rcoef m n k i) (vscale fac (smul (F i) (G (k - i)%nat))))
        | _ => rprod (T := R) (V3 := R) smul (smul fac (rcoef m n k i)) c ms ns ks (fun a => F (i + S m * a)%nat) (fun b => G (k - i + S n * b)%nat) end).
  { intros c0 i Hi. pose proof (rcoef_pos m n k i Hk Hi) as Rp. assert (I1 : (i <= m)%nat) by lia. assert (I2 : (k - i <= n)%nat) by lia. pose proof (n_coeffs_pos ms). pose proof (n_coeffs_pos ns). destruct ms as [|m' ms].
    - cbn [vadd vscale VOps_scalar sadd smul SOps_R]. assert (0 < F i) by (apply HF; clear - I1 H; nia). assert (0 < G (k - i)%nat) by (apply HG; clear - I2 H0; nia).
      assert (0 < rcoef m n k i * (fac * (F i * G (k - i)%nat))) by (apply Rmult_lt_0_compat; [exact Rp|]; apply Rmult_lt_0_compat; auto; apply Rmult_lt_0_compat; auto). lra.
    - apply IH; auto; [discriminate|cbn [smul SOps_R]; apply Rmult_lt_0_compat; auto| |]; intros a Ha; [apply HF|apply HG]; clear - I1 I2 Ha; nia. }
  assert (Nz : (0 < S (min k m) - (k - n))%nat) by lia.
  assert (Hl : forall i, In i (seq (k - n) (S (min k m) - (k - n))) -> (k - n <= i <= min k m)%nat) by (intros i Hi; apply in_seq in Hi; lia).
  destruct (seq (k - n) (S (min k m) - (k - n))) as [|a l] eqn:El.
  { apply (f_equal (@length nat)) in El. rewrite seq_length in El. cbn [length] in El. lia. }
  clear El. cbn [fold_left]. eapply Rlt_le_trans; [apply (St c a), Hl; now left|].
  match goal with |- ?x <= _ => generalize x end. assert (Hl' : forall i, In i l -> (k - n <= i <= min k m)%nat) by (intros i Hi; apply Hl; now right).
  clear Hl. induction l as [|b l IHl]; intros x; cbn [fold_left]; [lra|].
  eapply Rle_trans; [left; apply (St x b), Hl'; now left|]. apply IHl. intros i Hi. apply Hl'. now right.
Qed.

Section Gen.
Context (p : nat) (rnd : R -> R) (Hp : (0 < p)%nat) (HR : nearest p rnd).
Let u := / 2 ^ p.
Let Hu : 0 <= u := unit_pos p.
Let Hu1 : u < 1 := unit_lt_1 p Hp.
Let Hr : forall x, Rabs (rnd x - x) <= u * Rabs x := nearest_error p rnd Hp HR.
Notation ornd := (SOps_rnd rnd).
Notation Vs := (VOps_scalar R (o := ornd)).
Context (MAXB : nat) (HB : (MAXB <= 68)%nat).

Section Mul.
Context {V1 V2 V3 : Type} {ovr : VOps R V3} {ov : VOps R V3} (v0_r : v0 (VOps := ovr) = v0 (VOps := ov)).
Notation hom pr := (hom_to (o3 := ov) (o3r := ovr) rnd pr).
Context (pm' pm : V1 -> V2 -> V3) (e : nat).

Lemma rprod_maj pr B ms : hom pr -> forall ns ks (f' f : nat -> V1) (g' g : nat -> V2) (F G : nat -> R) jf fac' fac q c' c C,
  length ns = length ms -> valid_index (map2 Nat.add ms ns) ks ->
  (forall i j, Er ((1 + u) ^ e) (pr (pm' (f' i) (g' j))) (pr (pm (f i) (g j))) (B * (F i * G j))) -> Sr' u jf fac' fac ->
  Er ((1 + u) ^ (jf + 5 * length ms + 1 + e + q)) (pr c') (pr c) C ->
  Er ((1 + u) ^ (jf + 5 * length ms + 1 + e + q + terms ms ns ks))
    (pr (rprod (o := ornd) (o3 := ovr) pm' fac' c' ms ns ks f' g')) (pr (rprod (o := SOps_R) (o3 := ov) pm fac c ms ns ks f g))
    (rprod (T := R) (V3 := R) (fun a b => B * (a * b)) fac C ms ns ks F G).
Proof using Hp HR HB.
  intros (pr_add & pr_scale & pr_add_r & pr_scale_r & _).
  induction ms as [|m ms IH]; intros [|n ns] [|k ks] f' f g' g F G jf fac' fac q c' c C HL HK HM Hfac Hc; try discriminate; try (inversion HK; fail).
  - cbn [rprod terms]. eapply (Er_up p Hp); [|exact Hc]. lia.
  - cbn [map2] in HK. inversion HK as [|? ? ? ? Hk HK']; subst. cbn [rprod terms].
    generalize (S (min k m) - (k - n))%nat as N. intros N. induction N as [|N IHN].
    + eapply (Er_up p Hp); [|exact Hc]. lia.
    + rewrite !seq_S, !fold_left_app. cbn [fold_left]. set (i := (k - n + N)%nat).
      set (c1' := fold_left _ _ c') in *. set (c1 := fold_left _ _ c) in *. set (c1C := fold_left _ _ C) in *.
      pose proof (rcoef_sr p rnd Hp HR m n k i Hk) as (Hl0 & Hl). destruct Hfac as (Hf0 & Hfac).
      destruct ms as [|m' ms].
      * destruct ns; [|discriminate]. cbn [terms length] in *. rewrite pr_add, pr_add_r, !pr_scale, !pr_scale_r.
        cbn [vadd vscale VOps_scalar sadd smul SOps_R].
        apply (Er_up p Hp (S (jf + 5 * 1 + 1 + e + q + N * 1))); [lia|]. apply (Er_r p rnd Hp HR). apply Er_add.
        -- eapply (Er_up p Hp); [|exact IHN]. lia.
        -- apply (Er_up p Hp (S (4 + S (jf + e)))); [lia|]. apply (Er_r p rnd Hp HR). apply (Er_m p Hp); [apply (Sr_Er u Hu Hu1); auto|].
           apply (Er_r p rnd Hp HR). apply (Er_m p Hp); [apply (Sr_Er u Hu Hu1); auto|]. apply HM.
      * cbn [length] in *. set (t := terms (m' :: ms) ns ks) in *.
        replace (jf + 5 * S (S (length ms)) + 1 + e + q + S N * t)%nat
          with ((jf + 4 + 1) + 5 * S (length ms) + 1 + e + (q + N * t) + t)%nat by lia.
        apply IH; auto.
        -- cbn [smul SOps_rnd SOps_R]. apply (Sr'_mul p rnd Hp HR); split; auto.
        -- eapply (Er_up p Hp); [|exact IHN]. lia.
Qed.

Lemma mul_maj d1 d2 (P' P : spline V1) (Q' Q : spline V2) (A D : spline R) :
  wf P' -> wf P -> wf Q' -> wf Q -> wf A -> wf D ->
  degrees P' = degrees P -> degrees Q' = degrees Q -> degrees A = degrees P -> degrees D = degrees Q -> length (degrees Q) = length (degrees P) ->
  Forall (fun p => p < MAXB)%nat (map2 Nat.add (degrees P) (degrees Q)) ->
  exists r' r w, spline_mul (o := ornd) (o3 := ovr) MAXB pm' P' Q' = Ok r' /\ spline_mul (o3 := ov) MAXB pm P Q = Ok r /\ spline_mul_ss MAXB A D = Ok w /\
    (wf r' /\ wf r /\ wf w) /\ (degrees r' = map2 Nat.add (degrees P) (degrees Q) /\ degrees r = map2 Nat.add (degrees P) (degrees Q) /\ degrees w = map2 Nat.add (degrees P) (degrees Q)) /\
    (positive A -> positive D -> positive w) /\
    forall pr B, hom pr ->
     (forall i j, Er ((1 + u) ^ e) (pr (pm' (nth i (control_points P') d1) (nth j (control_points Q') d2)))
     (pr (pm (nth i (control_points P) d1) (nth j (control_points Q) d2))) (B * (nth i (control_points A) 0 * nth j (control_points D) 0))) ->
     nclose p (e + product_roundings (degrees P) (degrees Q) - 1) pr B r' r w.
Proof using Hp HR HB v0_r.
  intros WP' WP WQ' WQ WA WD DP DQ DA DD HL HMB.
  destruct (spline_mul_raw (o := ornd) (o3 := ovr) pm' d1 d2 MAXB HB (fun n k H _ => div_rnd p rnd Hp HR n k H) P' Q' WP' WQ') as (r' & E' & W' & D' & C').
  { congruence. }
  { now rewrite DP, DQ. }
  destruct (spline_mul_raw (T := R) (o3 := ov) pm d1 d2 MAXB HB (fun n k H _ => div_R p rnd Hp HR n k H) P Q WP WQ HL HMB) as (r & E & W & Dr & C).
  destruct (spline_mul_raw (T := R) (V3 := R) smul 0 0 MAXB HB (fun n k H _ => div_R p rnd Hp HR n k H) A D WA WD) as (w & Ew & Ww & Dw & Cw).
  { congruence. }
  { now rewrite DA, DD. }
  exists r', r, w. rewrite DP, DQ in D', C'. rewrite DA, DD in Dw, Cw.
  split; [exact E'|]. split; [exact E|]. split; [exact Ew|]. split; [auto|]. split; [auto|]. change (v0 (V := R)) with 0 in Cw. split.
  - intros PA PD i Hi. rewrite Cw by auto. apply rprod_pos; auto; [apply WP|rewrite Dw; apply index_of_valid|cbn; lra| |].
    + intros j Hj. apply PA. now rewrite DA.
    + intros j Hj. apply PD. now rewrite DD.
  - intros pr B HH HE i Hi. pose proof HH as (_ & _ & _ & _ & pr_0). rewrite v0_r in C'.
    rewrite C by (rewrite Dr, <- Dw; auto). rewrite C' by (rewrite D', <- Dw; auto). rewrite Cw by auto. rewrite D', Dr, Dw.
    set (ks := index_of _ i). assert (HK : valid_index (map2 Nat.add (degrees P) (degrees Q)) ks) by apply index_of_valid.
    rewrite <- rprod_scal. change (B * 0) with (B * R0). 
    pose proof (rprod_maj pr B (degrees P) HH (degrees Q) ks (fun i => nth i (control_points P') d1) (fun i => nth i (control_points P) d1)
      (fun i => nth i (control_points Q') d2) (fun i => nth i (control_points Q) d2) (fun i => nth i (control_points A) 0) (fun i => nth i (control_points D) 0)
      0 1 1 0 (v0 (VOps := ov)) (v0 (VOps := ov)) (B * 0) HL HK HE (Sr'_x p rnd Hp HR 1 0 ltac:(lra))) as K.
    eapply (Er_up p Hp); [|apply K].
    + unfold product_roundings. pose proof (terms_le (degrees P) (degrees Q) ks HL) as T.
      rewrite (valid_index_length _ _ HK), length_map2_add in T by auto. specialize (T eq_refl). lia.
    + rewrite pr_0, Rmult_0_r. apply (Er_up p Hp 0); [lia|]. apply (Er_xp p). lra.
Qed.
End Mul.

(** ** Compositions *)
Section Comp.
Context {V : Type} {ovr : VOps R V} {ov : VOps R V} {M : VMod R V} (v0_r : v0 (VOps := ovr) = v0 (VOps := ov)).
Notation hom pr := (hom_to (o3 := ov) (o3r := ovr) rnd pr).
Context (outer : spline V) (Ho : wf outer) (wc : list R) (Hwc : length wc = n_coeffs (degrees outer)).
Context (inner : spline (point R (length (degrees outer)))) (Hi : wf inner).
Context (HC : forall q k, In q (control_points inner) -> (k < length (degrees outer))%nat -> 0 <= coord _ q k <= 1).
Context (HF : Forall (fun p => list_sum (degrees outer) * p < MAXB)%nat (degrees inner)).
Context (HM : Forall (fun p => p < MAXB)%nat (degrees outer)).
Let wo : spline R := mk (degrees outer) wc.

Lemma sens_same {T} {o : SOps T} {W W' d} (a : spline W) (b : spline W') (i : spline (point T d)) : wf a -> wf b -> degrees b = degrees a ->
  ComposeSensitivity MAXB b i = ComposeSensitivity MAXB a i.
Proof using.
  intros Wa Wb H. rewrite (wf_eq_mk a Wa), (wf_eq_mk b Wb), H. reflexivity.
Qed.

Lemma comp_maj : exists r r0 w, Compose (o := ornd) (ov := ovr) MAXB outer inner = Ok r /\ Compose (ov := ov) MAXB outer inner = Ok r0 /\
    Compose MAXB wo inner = Ok w /\ (wf r /\ wf r0 /\ wf w) /\
    (degrees r = map (Nat.mul (list_sum (degrees outer))) (degrees inner) /\ degrees r0 = degrees r /\ degrees w = degrees r) /\
    (forall xs, length xs = length (degrees inner) -> value_at r0 xs = value_at outer (plist _ (value_at inner xs))) /\
    (forall xs, length xs = length (degrees inner) -> value_at w xs = value_at wo (plist _ (value_at inner xs))) /\
    (positive wo -> positive w) /\
    forall pr B, hom pr -> positive wo -> bounded pr B outer wo -> nclose p (compose_roundings (degrees outer) (degrees inner)) pr B r r0 w.
Proof using Hp HR HB M v0_r Ho Hwc Hi HC HF HM.
  assert (Wo : wf wo) by (apply wf_mk; auto; apply Ho).
  pose proof (cube_unit outer inner HC) as CU.
  destruct (Sens_rel p rnd Hp HR MAXB HB outer Ho inner Hi HC HF HM) as (ts' & ts & Es' & Es & L' & L & Hts & Hcomp).
  destruct (Hcomp ovr) as (r & E & W & D & Cr). clear Hcomp.
  destruct (c76_compose R V SOps_R ov _ M _ MAXB outer inner HB Ho Hi CU HF HM) as (r0 & ts0 & E0 & Es0 & _ & _ & _ & Hw).
  rewrite Es in Es0. injection Es0 as <-.
  destruct (c76_compose R R SOps_R _ _ _ _ MAXB wo inner HB Wo Hi CU HF HM) as (w & ts0 & Ew & Es0 & _ & _ & _ & Hww).
  rewrite (sens_same outer wo inner Ho Wo eq_refl), Es in Es0. injection Es0 as <-.
  destruct (Compose_ok MAXB HB _ inner Hi CU outer Ho eq_refl HF HM) as (r1 & E1 & W0 & D0 & _).
  rewrite E0 in E1. injection E1 as <-.
  destruct (Compose_ok MAXB HB _ inner Hi CU wo Wo eq_refl HF HM) as (r1 & E1 & Ww & Dw & _).
  assert (EE : Ok w = Ok r1) by (exact (eq_trans (eq_sym Ew) E1)). injection EE as <-. change (degrees wo) with (degrees outer) in Dw.
  exists r, r0, w. split; [exact E|]. split; [exact E0|]. split; [exact Ew|]. split; [auto|]. split; [split; [exact D|]; split; congruence|].
  split. { intros xs HX. apply (Compose_value MAXB HB _ inner Hi CU outer Ho eq_refl HF HM r0 E0 xs HX). }
  split. { intros xs HX. apply (Compose_value MAXB HB _ inner Hi CU wo Wo eq_refl HF HM w Ew xs HX). }
  set (n := n_coeffs (degrees outer)) in *. set (K := sensitivity_roundings (degrees outer) (degrees inner)) in *.
  set (t' i j := nth j (nth i (map control_points ts') []) 0) in *. set (t i j := nth j (nth i (map control_points ts) []) 0) in *.
  assert (Tt : forall i j, (i < n)%nat -> Sr' (/ 2 ^ p) K (t' i j) (t i j)).
  { intros i j Hn. destruct (Hts i Hn) as (a' & a & Et' & Et & ((_ & _ & _ & C) & _)). unfold t', t.
    rewrite (nth_indep (map control_points ts') [] (control_points a')) by (rewrite map_length; lia). rewrite (nth_indep (map control_points ts) [] (control_points a)) by (rewrite map_length; lia).
    rewrite !map_nth, (nth_error_nth _ _ a' Et'), (nth_error_nth _ _ a Et). apply C. }
  assert (Lw : length (control_points w) = n_coeffs (degrees w)) by apply Ww.
  assert (L0 : length (control_points r0) = n_coeffs (degrees r0)) by apply W0.
  assert (Cw : forall j, (j < n_coeffs (degrees w))%nat -> ssum (T := R) n (fun i => t i j) = 1 /\ nth j (control_points w) 0 = vsum (V := R) n (fun i => t i j * nth i wc 0)).
  { intros j Hj. destruct (Hww j ltac:(now rewrite Lw)) as (S1 & S2). rewrite L in S1, S2. fold n in S1, S2. split; [exact S1|]. exact S2. }
  split.
  - intros HP j Hj. destruct (Cw j Hj) as (S1 & ->).
    assert (Mon : forall m, (m <= n)%nat -> 0 <= ssum (T := R) m (fun i => t i j) /\ 0 <= vsum (V := R) m (fun i => t i j * nth i wc 0) /\
       (0 < ssum (T := R) m (fun i => t i j) -> 0 < vsum (V := R) m (fun i => t i j * nth i wc 0))).
    { induction m; intros Hm; [cbn; lra|]. destruct (IHm ltac:(lia)) as (I0 & I1 & I2). cbn [ssum vsum vadd VOps_scalar sadd SOps_R].
      pose proof (proj1 (Tt m j ltac:(lia))) as T0. pose proof (HP m ltac:(cbn [wo mk degrees]; fold n; lia)) as P0. cbn [wo mk control_points] in P0.
      assert (0 <= t m j * nth m wc 0) by (apply Rmult_le_pos; lra). split; [lra|]. split; [lra|]. intros S.
      destruct (Rle_lt_dec (t m j) 0) as [Z|Z]; [assert (0 < ssum (T := R) m (fun i => t i j)) by lra; specialize (I2 H0); lra|].
      assert (0 < t m j * nth m wc 0) by (apply Rmult_lt_0_compat; lra). lra. }
    apply (Mon n ltac:(lia)). rewrite S1. lra.
  - intros pr B (H1 & H2 & H3 & H4 & H5) HP HBd j Hj.
    assert (Psum : forall m f, pr (vsum (ov := ov) m f) = vsum (V := R) m (fun i => pr (f i))).
    { intros m f. induction m; cbn [vsum]; [exact H5|]. rewrite H1, IHm. reflexivity. }
    assert (Psumr : forall m f, pr (vsum (ov := ovr) m f) = vsum (ov := VOps_scalar R (o := SOps_rnd rnd)) m (fun i => pr (f i))).
    { intros m f. induction m; cbn [vsum]; [rewrite v0_r; exact H5|]. rewrite H3, IHm. reflexivity. }
    destruct (Cw j Hj) as (_ & ->). destruct (Hw j) as (S1 & S2); [rewrite L0, D0, <- Dw; auto|].
    rewrite v0_r in Cr. rewrite Cr by (rewrite D, <- Dw; auto). rewrite S2, L. fold n.
    rewrite Psum, Psumr.
    pose proof (Accumulate_err rnd (/ 2 ^ p) (unit_pos p) (nearest_error p rnd Hp HR) (unit_lt_1 p Hp) 0 K (fun i => t i j) (fun i => t' i j) (fun i => pr (nth i (control_points outer) v0))
      (rnd_idem p rnd HR) n (fun i Hn => Tt i j Hn)) as A.
    rewrite (vsum_ext (ov := VOps_scalar R (o := SOps_rnd rnd)) n _ (fun i => rnd (t' i j * pr (nth i (control_points outer) v0)))) by (intros i Hn; apply H4).
    rewrite (vsum_ext (ov := VR) n _ (fun i => t i j * pr (nth i (control_points outer) v0))) by (intros i Hn; apply H2).
    unfold compose_roundings. fold K n.
    eapply Er_weak; [apply (u_pow u Hu)| |exact A].
    apply Rle_trans with (vsum (V := R) n (fun i => B * (t i j * nth i wc 0))).
    + assert (Mon : forall m, (m <= n)%nat -> vsum (V := R) m (fun i => t i j * Rabs (pr (nth i (control_points outer) v0))) <= vsum (V := R) m (fun i => B * (t i j * nth i wc 0))).
      { induction m; intros Hm; cbn [vsum]; [apply Rle_refl|]. cbn [vadd VOps_scalar sadd SOps_R]. apply Rplus_le_compat; [apply IHm; lia|].
        replace (B * (t m j * nth m wc 0)) with (t m j * (B * nth m wc 0)) by ring.
        apply Rmult_le_compat_l; [apply (Tt m j); lia|]. apply HBd. cbn [wo mk degrees]. fold n. lia. }
      apply Mon. lia.
    + right. exact (ssum_scale (T := R) n B (fun i => t i j * nth i wc 0)).
Qed.
End Comp.
End Gen.
