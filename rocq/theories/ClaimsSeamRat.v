(** C97: the pieces of a subdivided rational spline fit together, whatever the arithmetic. *)
From Coq Require Import Arith Lia List ZArith NArith Bool Reals Lra.
From Verif Require Import Prelude Scalar Spec SpecSpline SpecRational SpecSeam Sums Order Coord ModelBasis ModelSpline ModelRational
  ModelRound SpecRound ProofIndex ProofBasis ProofEval ProofElevate ProofArith ProofSplit ProofRational ProofRational2 ProofCasteljau ProofRaw ProofSeam ProofRound ProofRoundEval ProofRoundOps
  ClaimsB ClaimsE ClaimsN ClaimsU ClaimsX ClaimsRoundOps ModelRoundRat SpecSeamRat.
Import ListNotations.

Section Any.
Context {T V : Type} {o : SOps T} {ov : VOps T V}.

Lemma R_split_parts (r : rspline T V) x k parts : rwf r -> k < length (rdegrees r) -> R_SplitAtPosition (o := o) (ov := ov) r x k = Ok parts ->
  exists u0 u1 w0 w1, SplitAtPosition (o := o) (ov := ov) (weighted_spline r) x k = Ok [u0; u1] /\
    SplitAtPosition (o := o) (ov := VOps_scalar T) (weight_function r) x k = Ok [w0; w1] /\
    parts = [mkR u0 w0; mkR u1 w1] /\ rwf (mkR u0 w0) /\ rwf (mkR u1 w1) /\
    degrees u0 = rdegrees r /\ degrees u1 = rdegrees r.
Proof.
  intros (Wu & Ww & Dw) Hk H. unfold rdegrees in *. unfold R_SplitAtPosition in H.
  apply bind_ok in H. destruct H as (us & E & H). apply bind_ok in H. destruct H as (ws & F & H).
  destruct (split_faces (o := o) (ov := ov) _ x k us Wu Hk E) as (u0 & u1 & -> & A0 & A1 & D0 & D1 & _).
  destruct (split_faces (o := o) (ov := VOps_scalar T) _ x k ws Ww ltac:(congruence) F) as (w0 & w1 & -> & B0 & B1 & G0 & G1 & _).
  cbn [get nth_error bind] in H. rewrite !R_mk_ok in H by congruence. cbn [bind] in H. injection H as <-.
  exists u0, u1, w0, w1. repeat (split; [first [assumption|reflexivity]|]).
  split; [split; [|split]; cbn [weighted_spline weight_function]; auto; congruence|].
  split; [split; [|split]; cbn [weighted_spline weight_function]; auto; congruence|]. auto.
Qed.

Lemma R_splits_parts (r : rspline T V) planes k parts : rwf r -> k < length (rdegrees r) -> R_SplitAtPositions (o := o) (ov := ov) r planes k = Ok parts ->
  exists us ws, SplitAtPositions (o := o) (ov := ov) (weighted_spline r) planes k = Ok us /\
    SplitAtPositions (o := o) (ov := VOps_scalar T) (weight_function r) planes k = Ok ws /\
    length ws = length us /\ parts = map2 (fun u w => mkR u w) us ws.
Proof.
  intros Wr Hk H. unfold R_SplitAtPositions in H. unfold SplitAtPositions. destruct (negb (is_sorted planes)); [discriminate|].
  destruct (length planes =? 0) eqn:E0.
  { injection H as <-. exists [weighted_spline r], [weight_function r]. destruct r; repeat split. }
  apply Nat.eqb_neq in E0. rewrite (get_ok s0) in H |- * by lia. cbn [bind] in H |- *.
  apply bind_ok in H. destruct H as (sp & E1 & H).
  destruct (R_split_parts r _ k sp Wr Hk E1) as (u0 & u1 & w0 & w1 & Eu & Ew & -> & R0 & R1 & D0 & D1).
  rewrite Eu, Ew. cbn [get nth_error bind] in H |- *.
  apply bind_ok in H. destruct H as ([out sp] & E2 & H).
  set (fu := fun (i : nat) '(out, split) => do pi <- get planes i; do pm <- get planes (i - 1); do rel <- divS (ssub pi pm) (ssub s1 pm);
     do rest <- get split 1; do split <- SplitAtPosition (o := o) (ov := ov) rest rel k; do x <- get split 0; Ok (out ++ [x], split)) in *.
  set (fw := fun (i : nat) '(out, split) => do pi <- get planes i; do pm <- get planes (i - 1); do rel <- divS (ssub pi pm) (ssub s1 pm);
     do rest <- get split 1; do split <- SplitAtPosition (o := o) (ov := VOps_scalar T) rest rel k; do x <- get split 0; Ok (out ++ [x], split)) in *.
  eapply (for_up_pci (fun i (st : list (rspline T V) * list (rspline T V)) => let '(out, sp) := st in
    exists uo wo u0' u1' w0' w1', for_up 1 (i - 1) fu ([u0], [u0; u1]) = Ok (uo, [u0'; u1']) /\ for_up 1 (i - 1) fw ([w0], [w0; w1]) = Ok (wo, [w0'; w1']) /\
      length wo = length uo /\ out = map2 (fun u w => mkR u w) uo wo /\ sp = [mkR u0' w0'; mkR u1' w1'] /\ rwf (mkR u1' w1') /\ degrees u1' = rdegrees r)) in E2.
  - destruct E2 as (uo & wo & u0' & u1' & w0' & w1' & Fu & Fw & L & -> & -> & _ & _).
    replace (1 + (length planes - 1) - 1) with (length planes - 1) in Fu, Fw by lia.
    rewrite Fu, Fw. cbn [get nth_error bind] in H |- *. injection H as <-.
    exists (uo ++ [u1']), (wo ++ [w1']). split; [reflexivity|]. split; [reflexivity|]. split; [rewrite !app_length; cbn [length]; lia|].
    clear -L. revert wo L. induction uo as [|a uo IH]; intros [|b wo] L; cbn [length] in L; try discriminate; [reflexivity|].
    cbn [map2 app]. f_equal. apply IH. lia.
  - intros i [ou sp'] y Hi (uo & wo & u0' & u1' & w0' & w1' & Fu & Fw & L & -> & -> & W1 & Dg) HB.
    apply bind_ok in HB. destruct HB as (pi & G1 & HB). apply bind_ok in HB. destruct HB as (pm & G2 & HB).
    apply bind_ok in HB. destruct HB as (rel & G3 & HB). cbn [get nth_error bind] in HB.
    apply bind_ok in HB. destruct HB as (sp2 & E3 & HB).
    assert (Hk' : k < length (rdegrees (mkR u1' w1'))) by (unfold rdegrees at 1; cbn [weighted_spline]; congruence).
    destruct (R_split_parts (mkR u1' w1') _ k sp2 W1 Hk' E3) as (v0' & v1' & x0 & x1 & Eu' & Ew' & -> & Q0 & Q1 & C0 & C1).
    cbn [weighted_spline weight_function] in Eu', Ew'. cbn [get nth_error bind] in HB. injection HB as <-.
    exists (uo ++ [v0']), (wo ++ [x0]), v0', v1', x0, x1.
    replace (S i - 1) with (S (i - 1)) by lia. rewrite !for_up_S, Fu, Fw. cbn [bind].
    replace (1 + (i - 1)) with i by lia. unfold fu, fw. rewrite G1. cbn [bind]. rewrite G2. cbn [bind]. rewrite G3. cbn [bind get nth_error].
    rewrite Eu', Ew'. cbn [bind get nth_error]. split; [reflexivity|]. split; [reflexivity|]. split; [rewrite !app_length; cbn [length]; lia|].
    split; [|split; [reflexivity|split; [exact Q1|unfold rdegrees in C1; cbn [weighted_spline] in C1; congruence]]].
    clear -L. revert wo L. induction uo as [|a uo IH]; intros [|b wo] L; cbn [length] in L; try discriminate; [reflexivity|].
    cbn [map2 app]. f_equal. apply IH. lia.
  - exists [u0], [w0], u0, u1, w0, w1. repeat (split; [first [reflexivity|assumption]|]). assumption.
Qed.
End Any.


Section Claims.
Context {T V : Type} {o : SOps T} {ov : VOps T V}.
Lemma g97_split (r : rspline T V) x k parts : rwf r -> k < length (rdegrees r) -> R_SplitAtPosition (o := o) (ov := ov) r x k = Ok parts ->
  exists a b, parts = [a; b] /\ rwf a /\ rwf b /\ rdegrees a = rdegrees r /\ rdegrees b = rdegrees r /\
    rational_same_near_face k a r /\ rational_joined k a b /\ rational_same_far_face k b r.
Proof.
  intros Wr Hk H. destruct (R_split_parts r x k parts Wr Hk H) as (u0 & u1 & w0 & w1 & Eu & Ew & -> & R0 & R1 & D0 & D1).
  destruct Wr as (Wu & Ww & Dw). unfold rdegrees in *.
  destruct (split_faces (o := o) (ov := ov) _ x k _ Wu Hk Eu) as (a0 & a1 & E & _ & _ & _ & _ & F1 & F2 & F3). injection E as <- <-.
  destruct (split_faces (o := o) (ov := VOps_scalar T) _ x k _ Ww ltac:(congruence) Ew) as (a0 & a1 & E & _ & _ & _ & _ & G1 & G2 & G3). injection E as <- <-.
  exists (mkR u0 w0), (mkR u1 w1). split; [reflexivity|]. do 4 (split; [assumption|]). split; [split; assumption|]. split; split; assumption.
Qed.
Lemma nth_combine (us : list (spline V)) (ws : list (spline T)) i r : length ws = length us -> i < length us ->
  nth i (map2 (fun u w => mkR u w) us ws) r = mkR (nth i us (weighted_spline r)) (nth i ws (weight_function r)).
Proof.
  revert ws i. induction us as [|u us IH]; intros [|w ws] [|i] HL Hi; cbn [length] in *; try lia; cbn [map2 nth]; [reflexivity|]. apply IH; lia.
Qed.
Lemma g97_splits (r : rspline T V) planes k parts : rwf r -> k < length (rdegrees r) -> R_SplitAtPositions (o := o) (ov := ov) r planes k = Ok parts ->
  length parts = S (length planes) /\ Forall (fun q => rwf q /\ rdegrees q = rdegrees r) parts /\
  rational_same_near_face k (nth 0 parts r) r /\ rational_same_far_face k (nth (length planes) parts r) r /\
  forall i, i < length planes -> rational_joined k (nth i parts r) (nth (S i) parts r).
Proof.
  intros Wr Hk H. destruct (R_splits_parts r planes k parts Wr Hk H) as (us & ws & Eu & Ew & L & ->).
  destruct Wr as (Wu & Ww & Dw). unfold rdegrees in *.
  destruct (splits_faces (o := o) (ov := ov) _ planes k us Wu Hk Eu) as (Lu & Fu & A1 & A2 & A3).
  destruct (splits_faces (o := o) (ov := VOps_scalar T) _ planes k ws Ww ltac:(congruence) Ew) as (Lw & Fw & B1 & B2 & B3).
  assert (Lp : length (map2 (fun u w => mkR u w) us ws) = S (length planes)) by (rewrite length_map2; lia).
  split; [exact Lp|]. split.
  { rewrite Forall_forall in *. intros q Hq. destruct (In_nth _ _ r Hq) as (i & Hi & <-). rewrite nth_combine by lia.
    destruct (Fu (nth i us (weighted_spline r))) as (C1 & C2); [apply nth_In; lia|]. destruct (Fw (nth i ws (weight_function r))) as (C3 & C4); [apply nth_In; lia|].
    split; [split; [|split]; cbn [weighted_spline weight_function]; auto; congruence|exact C2]. }
  rewrite !nth_combine by lia. split; [split; assumption|]. split; [split; assumption|].
  intros i Hi. rewrite !nth_combine by lia. split; [apply A3; auto|apply B3; auto].
Qed.
End Claims.
Lemma c97_split : forall (T V : Type) (o : SOps T) (ov : VOps T V) (r : rspline T V) x k parts,
  rwf r -> (k < length (rdegrees r))%nat -> R_SplitAtPosition r x k = Ok parts ->
  exists a b, parts = [a; b] /\ rwf a /\ rwf b /\ rdegrees a = rdegrees r /\ rdegrees b = rdegrees r /\
    rational_same_near_face k a r /\ rational_joined k a b /\ rational_same_far_face k b r.
Proof. intros. apply (g97_split r x); auto. Qed.
Lemma c97_splits : forall (T V : Type) (o : SOps T) (ov : VOps T V) (r : rspline T V) planes k parts,
  rwf r -> (k < length (rdegrees r))%nat -> R_SplitAtPositions r planes k = Ok parts ->
  length parts = S (length planes) /\ Forall (fun q => rwf q /\ rdegrees q = rdegrees r) parts /\
  rational_same_near_face k (nth 0 parts r) r /\ rational_same_far_face k (nth (length planes) parts r) r /\
  forall i, (i < length planes)%nat -> rational_joined k (nth i parts r) (nth (S i) parts r).
Proof. intros. apply g97_splits; auto. Qed.

Local Open Scope R_scope.
Definition repr_coeffs (p : nat) (s : spline R) : Prop := forall q, In q (control_points s) -> representable p q.
Lemma watertight_s p rnd (a b : spline R) k xs : (0 < p)%nat -> nearest p rnd ->
  wf a -> wf b -> degrees b = degrees a -> (k < length (degrees a))%nat -> length xs = length (degrees a) -> joined (T := R) (ov := VOps_scalar R (o := SOps_rnd rnd)) k a b ->
  repr_coeffs p a -> repr_coeffs p b ->
  Evaluate_rnd_s rnd a (upd_list xs k 1) = Evaluate_rnd_s rnd b (upd_list xs k 0).
Proof.
  intros Hp HR Ha Hb D Hk HL HJ H1 H2. unfold Evaluate_rnd_s.
  rewrite !Evaluate_dct by (auto; rewrite length_upd; congruence). rewrite D. f_equal.
  assert (HP : forall s, repr_coeffs p s -> forall i, representable p (nth i (control_points s) (v0 (VOps := VOps_scalar R (o := SOps_rnd rnd))))).
  { intros s Hs i. destruct (nth_in_or_default i (control_points s) (v0 (VOps := VOps_scalar R (o := SOps_rnd rnd)))) as [Hi| ->]; [apply Hs; auto|apply repr_0]. }
  apply (dct_joined p); auto. intros mi HV. specialize (HJ mi HV). unfold face_coefficient in HJ. rewrite D in HJ. exact HJ.
Qed.
Lemma split_repr_s p rnd (s : spline R) x k l r : nearest p rnd -> wf s -> (k < length (degrees s))%nat ->
  SplitAtPosition (o := SOps_rnd rnd) (ov := VOps_scalar R (o := SOps_rnd rnd)) s x k = Ok [l; r] -> repr_coeffs p s -> repr_coeffs p l /\ repr_coeffs p r.
Proof.
  intros HR Hw Hk E HC.
  assert (HX : slt (H := SOps_rnd rnd) (s0 (SOps := SOps_rnd rnd)) x /\ slt (H := SOps_rnd rnd) x (s1 (SOps := SOps_rnd rnd))).
  { unfold SplitAtPosition in E. unfold slt. destruct (sltb (SOps := SOps_rnd rnd) s0 x); [|discriminate].
    destruct (sltb (SOps := SOps_rnd rnd) x s1); [auto|discriminate]. }
  destruct (SplitAtPosition_raw (o := SOps_rnd rnd) (ov := VOps_scalar R (o := SOps_rnd rnd)) s x k Hw Hk (proj1 HX) (proj2 HX)) as (c1 & c2 & E' & L1 & L2 & HN).
  rewrite E' in E. injection E as <- <-.
  set (q := nth k (degrees s) 0%nat) in *. set (off := n_coeffs (firstn k (degrees s))) in *.
  set (cnt := n_coeffs (skipn (S k) (degrees s))) in *.
  assert (Hoff : (0 < off)%nat) by apply n_coeffs_pos.
  assert (Lc : length (control_points s) = n_coeffs (degrees s)) by apply Hw.
  assert (Etot : n_coeffs (degrees s) = (off * (q + 1) * cnt)%nat).
  { rewrite (n_coeffs_split (degrees s) k), (skipn_cons_nth 0%nat (degrees s) k) by auto.
    rewrite n_coeffs_cons. fold q off cnt. lia. }
  assert (HF : forall i, representable p (nth i (control_points s) (v0 (VOps := VOps_scalar R (o := SOps_rnd rnd))))).
  { intros i. destruct (nth_in_or_default i (control_points s) (v0 (VOps := VOps_scalar R (o := SOps_rnd rnd)))) as [Hi| ->]; [apply HC; auto|apply repr_0]. }
  assert (Key : forall i, (i < n_coeffs (degrees s))%nat ->
    representable p (nth i c1 (v0 (VOps := VOps_scalar R (o := SOps_rnd rnd)))) /\ representable p (nth i c2 (v0 (VOps := VOps_scalar R (o := SOps_rnd rnd))))).
  { intros i Hi.
    assert (HI : exists a j m, (a < off)%nat /\ (j <= q)%nat /\ (m < cnt)%nat /\ i = (a + off * (j + (q + 1) * m))%nat).
    { exists (i mod off)%nat, (i / off mod (q + 1))%nat, (i / off / (q + 1))%nat.
      split; [apply Nat.mod_upper_bound; lia|]. split; [pose proof (Nat.mod_upper_bound (i / off) (q + 1)); lia|]. split.
      - apply Nat.div_lt_upper_bound; [lia|]. apply Nat.div_lt_upper_bound; [lia|]. rewrite Etot in Hi. nia.
      - rewrite (Nat.div_mod i off) at 1 by lia. rewrite (Nat.div_mod (i / off) (q + 1)) at 1 by lia. lia. }
    destruct HI as (a & j & m & Ha & Hj & Hm & ->). destruct (HN a j m Ha Hj Hm) as (A1 & A2).
    rewrite A1, A2. split; apply dc_repr; auto. }
  split; intros z Hz; cbn [control_points with_cps] in Hz; destruct (In_nth _ _ (v0 (VOps := VOps_scalar R (o := SOps_rnd rnd))) Hz) as (i & Hi & <-); apply Key; lia.
Qed.
Lemma splits_repr_s p rnd (s : spline R) planes k parts : nearest p rnd -> wf s -> (k < length (degrees s))%nat ->
  SplitAtPositions (o := SOps_rnd rnd) (ov := VOps_scalar R (o := SOps_rnd rnd)) s planes k = Ok parts -> repr_coeffs p s -> forall q, In q parts -> repr_coeffs p q.
Proof.
  intros HR Hw Hk E HC. unfold SplitAtPositions in E. destruct (is_sorted planes); [|discriminate]. cbn [negb] in E.
  destruct (Nat.eqb_spec (length planes) 0) as [E0|E0].
  { injection E as <-. intros q [<-|[]]. exact HC. }
  rewrite (get_ok (s0 (SOps := SOps_rnd rnd))) in E by lia. cbn [bind] in E. apply bind_ok in E. destruct E as (sp & E1 & E).
  destruct (split_faces (o := SOps_rnd rnd) (ov := VOps_scalar R (o := SOps_rnd rnd)) s _ k sp Hw Hk E1) as (l & r & -> & Wl & Wr & Dl & Dr & _).
  destruct (split_repr_s p rnd s _ k l r HR Hw Hk E1 HC) as (Rl & Rr).
  cbn [get nth_error bind] in E. apply bind_ok in E. destruct E as ([out sp] & E2 & E).
  eapply (for_up_pci (fun i (st : list (spline R) * list (spline R)) => let '(out, sp) := st in
    exists l r, sp = [l; r] /\ (forall q, In q out -> repr_coeffs p q) /\ wf r /\ degrees r = degrees s /\ repr_coeffs p r)) in E2.
  - destruct E2 as (l' & r' & -> & HW & Wr' & Dr' & Rr'). cbn [get nth_error bind] in E. injection E as <-.
    intros q Hq. apply in_app_or in Hq. destruct Hq as [Hq|[<-|[]]]; auto.
  - intros i [ou sp'] y Hi HI HB. destruct HI as (l' & r' & -> & HW & Wr' & Dr' & Rr').
    apply bind_ok in HB. destruct HB as (pi & _ & HB). apply bind_ok in HB. destruct HB as (pm & _ & HB).
    apply bind_ok in HB. destruct HB as (rel & _ & HB). cbn [get nth_error bind] in HB.
    apply bind_ok in HB. destruct HB as (sp2 & E3 & HB).
    assert (Hk' : (k < length (degrees r'))%nat) by congruence.
    destruct (split_faces (o := SOps_rnd rnd) (ov := VOps_scalar R (o := SOps_rnd rnd)) r' _ k sp2 Wr' Hk' E3) as (l2 & r2 & -> & Wl2 & Wr2 & Dl2 & Dr2 & _).
    destruct (split_repr_s p rnd r' _ k l2 r2 HR Wr' Hk' E3 Rr') as (Rl2 & Rr2).
    cbn [get nth_error bind] in HB. injection HB as <-. exists l2, r2.
    split; [reflexivity|]. split.
    { intros q Hq. apply in_app_or in Hq. destruct Hq as [Hq|[<-|[]]]; auto. }
    split; [auto|]. split; [congruence|auto].
  - exists l, r. split; [reflexivity|]. split; [intros q [<-|[]]; auto|]. auto.
Qed.
Lemma c97_watertight : forall p rnd d (a b : rspline R (point R d)) k xs, (0 < p)%nat -> nearest p rnd ->
  rwf a -> rwf b -> rdegrees b = rdegrees a -> (k < length (rdegrees a))%nat -> length xs = length (rdegrees a) -> rational_joined k a b ->
  rational_representable p a -> rational_representable p b ->
  R_Evaluate_rnd rnd a (upd_list xs k 1) = R_Evaluate_rnd rnd b (upd_list xs k 0).
Proof.
  intros p rnd d a b k xs Hp HR (Wu & Ww & Dw) (Wu2 & Ww2 & Dw2) D Hk HL (J1 & J2) (C1 & C2) (C3 & C4). unfold rdegrees in *.
  assert (E : Evaluate_rnd rnd (weighted_spline a) (upd_list xs k 1) = Evaluate_rnd rnd (weighted_spline b) (upd_list xs k 0)).
  { apply (c84_watertight p); auto. intros q c Hq Hc. apply in_app_or in Hq. destruct Hq as [Hq|Hq]; auto. }
  assert (F : Evaluate_rnd_s rnd (weight_function a) (upd_list xs k 1) = Evaluate_rnd_s rnd (weight_function b) (upd_list xs k 0)).
  { apply (watertight_s p); auto; congruence. }
  unfold R_Evaluate_rnd, R_Evaluate. unfold Evaluate_rnd in E. unfold Evaluate_rnd_s in F. rewrite E, F. reflexivity.
Qed.
Lemma c97_pieces : forall p rnd d (r : rspline R (point R d)) planes k parts, (0 < p)%nat -> nearest p rnd ->
  rwf r -> (k < length (rdegrees r))%nat -> R_SplitAtPositions_rnd rnd r planes k = Ok parts -> rational_representable p r ->
  length parts = S (length planes) /\
  forall i xs, (i < length planes)%nat -> length xs = length (rdegrees r) ->
    R_Evaluate_rnd rnd (nth i parts r) (upd_list xs k 1) = R_Evaluate_rnd rnd (nth (S i) parts r) (upd_list xs k 0).
Proof.
  intros p rnd d r planes k parts Hp HR Hw Hk E (C1 & C2). unfold R_SplitAtPositions_rnd in E.
  destruct (g97_splits (o := SOps_rnd rnd) (ov := Vr rnd d) r planes k parts Hw Hk E) as (HL & HW & _ & _ & HJ).
  split; [exact HL|]. intros i xs Hi HX.
  destruct (R_splits_parts (o := SOps_rnd rnd) (ov := Vr rnd d) r planes k parts Hw Hk E) as (us & ws & Eu & Ew & L & EP).
  assert (Lu : length us = S (length planes)) by (rewrite EP in HL; rewrite length_map2 in HL; lia).
  assert (HI : forall j, (j <= length planes)%nat -> In (nth j parts r) parts) by (intros; apply nth_In; lia).
  rewrite Forall_forall in HW. destruct (HW _ (HI i ltac:(lia))) as (Wa & Da). destruct (HW _ (HI (S i) ltac:(lia))) as (Wb & Db).
  assert (RR : forall j, (j <= length planes)%nat -> rational_representable p (nth j parts r)).
  { intros j Hj. rewrite EP, nth_combine by lia. destruct Hw as (Wu & Ww & Dw). unfold rdegrees in Hk. split; cbn [weighted_spline weight_function].
    - apply (splits_repr p rnd d (weighted_spline r) planes k us HR Wu Hk Eu C1). apply nth_In. lia.
    - apply (splits_repr_s p rnd (weight_function r) planes k ws HR Ww ltac:(congruence) Ew C2). apply nth_In. lia. }
  apply (c97_watertight p); auto; try congruence.
  - exact (HJ i Hi).
  - apply RR. lia.
Qed.
