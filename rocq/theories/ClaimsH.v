(** Claims about composition with rational splines. *)
From Coq Require Import Arith Lia List ZArith NArith Bool Ring Field QArith Qcanon.
From Verif Require Import Prelude Scalar Spec SpecSpline Sums Order Coord ModelBasis ModelSpline ModelPoint
  Examples ProofIndex ProofBasis ProofEval ProofElevate ProofUnique ClaimsA ProofArith ClaimsB ProofCube ClaimsC
  ProofMul ProofSplit ClaimsD ProofCompose ClaimsE ModelRational SpecRational ProofRational ProofRational2
  ProofRational3 ClaimsG.
Import ListNotations.
Local Open Scope nat_scope.

(** ** Sensitivities, for any of the overloads *)
Section Sens.
Context {T V : Type} {o : SOps T} {ov : VOps T V} {F : SField T} {M : VMod T V}.
Add Field Tfield : (@sf_th T o F).
Add Ring Ering : (@ext_ring T V o ov F M).
Ltac vring := to_ext; ring.
Context (r : rspline T V) (Hr : rwf r) (ts : list (rspline T T)) (n : nat) (X : list V) (HX : length X = n).
Context (g : nat -> T) (beta : nat -> list T -> T) (D : list T -> Prop).
Context (HV : forall xs, D xs -> value_at (weighted_spline r) xs = vsum n (fun i => vscale (beta i xs) (nth i X v0))).
Context (HL : length ts = n).
Context (HT : forall i, i < n -> exists t, nth_error ts i = Some t /\ rwf t /\ rdegrees t = rdegrees r /\
  weight_function t = weight_function r /\
  forall xs, D xs -> value_at (weighted_spline t) xs = smul (g i) (beta i xs)).

Lemma sens_value i t xs : i < n -> nth_error ts i = Some t -> D xs -> rdomain r xs ->
  rdomain t xs /\ rwf t /\
  rvalue t xs = smul (sdiv s1 (value_at (weight_function r) xs)) (smul (g i) (beta i xs)).
Proof.
  intros Hi Et HD (Hl & HN). destruct (HT i Hi) as (t' & Et' & Ht & Dt & Wt & Vt).
  assert (t' = t) by congruence. subst t'. split; [split; [congruence|rewrite Wt; auto]|]. split; [auto|].
  unfold rvalue. rewrite Wt, Vt by auto. reflexivity.
Qed.

Lemma sens_move i P delta r' : nth_error X i = Some P -> rwf r' -> rdegrees r' = rdegrees r ->
  weight_function r' = weight_function r ->
  (forall xs, D xs -> value_at (weighted_spline r') xs =
    vsum n (fun j => vscale (beta j xs) (nth j (upd_list X i (vadd P (vscale (g i) delta))) v0))) ->
  exists t, nth_error ts i = Some t /\ rwf t /\
    forall xs, D xs -> rdomain r xs -> exists a c, R_Evaluate r xs = Ok a /\ R_Evaluate t xs = Ok c /\
      R_Evaluate r' xs = Ok (vadd a (vscale c delta)).
Proof.
  intros HP Hr' Dr' Wr' HV'.
  assert (Hi : i < n) by (rewrite <- HX; apply nth_error_Some; congruence).
  destruct (HT i Hi) as (t & Et & Ht & Dt & Wt & Vt). exists t. do 2 (split; [auto|]).
  intros xs HD HR. destruct (sens_value i t xs Hi Et HD HR) as (Rt & _ & ET).
  exists (rvalue r xs), (rvalue t xs). destruct HR as (Hl & HN).
  rewrite !R_Evaluate_ok; auto; try (split; auto; fail).
  2:{ split; [congruence|rewrite Wr'; auto]. }
  do 2 (split; [auto|]). f_equal. rewrite ET. unfold rvalue at 1. rewrite Wr', HV' by auto.
  rewrite (vsum_upd n (fun j => beta j xs) X i P) by auto. unfold rvalue. rewrite HV by auto.
  rewrite vm_dr. f_equal. rewrite <- !vm_mul. f_equal. ring.
Qed.

Lemma sens_sum pts xs : (forall i, i < n -> nth i X v0 = vscale (g i) (nth i pts v0)) -> D xs -> rdomain r xs ->
  exists cs : list T, mapM (fun t => R_Evaluate t xs) ts = Ok cs /\
    R_Evaluate r xs = Ok (vsum n (fun i => vscale (nth i cs s0) (nth i pts v0))).
Proof.
  intros HP HD HR. exists (map (fun t => rvalue t xs) ts). split.
  - apply mapM_ok. intros t Ht. destruct (In_nth_error _ _ Ht) as (i & Ei).
    assert (Hi : i < n) by (rewrite <- HL; apply nth_error_Some; congruence).
    destruct (sens_value i t xs Hi Ei HD HR) as (A & B & _). apply R_Evaluate_ok; auto.
  - rewrite R_Evaluate_ok by auto. f_equal. unfold rvalue at 1. rewrite HV by auto. rewrite <- vsum_scale.
    apply vsum_ext. intros i Hi. destruct (HT i Hi) as (t & Et & _).
    rewrite (nth_error_nth _ _ s0 (map_nth_error (fun t => rvalue t xs) i ts Et)).
    destruct (sens_value i t xs Hi Et HD HR) as (_ & _ & ->). rewrite HP by auto. rewrite <- !vm_mul.
    f_equal. ring.
Qed.
End Sens.

Lemma push_loop {A} (f : nat -> res A) (n : nat) (P : nat -> A -> Prop) :
  (forall i, i < n -> exists a, f i = Ok a /\ P i a) ->
  exists out, for_up 0 n (fun i out => do a <- f i; Ok (out ++ [a])) [] = Ok out /\ length out = n /\
    forall i, i < n -> exists a, nth_error out i = Some a /\ P i a.
Proof.
  intros H.
  edestruct (for_up_inv (fun k out => length out = k /\ forall i, i < k -> exists a, nth_error out i = Some a /\ P i a))
    as (out & E & (HL & HN)).
  3:{ exists out. split; [exact E|]. split; [exact HL|exact HN]. }
  - split; auto. intros; lia.
  - cbv beta. intros k out Hk (HL & HN). destruct (H k ltac:(lia)) as (a & E & Ha). rewrite E. cbn [bind].
    eexists. split; [reflexivity|]. split; [rewrite app_length; simpl; lia|].
    intros i Hi. destruct (Nat.eq_dec i k) as [->|].
    + exists a. rewrite nth_error_app2 by lia. replace (k - length out) with 0 by lia. auto.
    + destruct (HN i ltac:(lia)) as (b & Eb & Hb). exists b. rewrite nth_error_app1 by lia. auto.
Qed.

(** ** Shared facts about the three overloads *)
Section Compose.
Context {T V : Type} {o : SOps T} {ov : VOps T V} {F : SField T} {M : VMod T V}.
Add Field Tfield2 : (@sf_th T o F).
Context (MAXB fuel : nat) (HB : MAXB <= 68) (d : nat).

Lemma scale_sens (outer : rspline T V) (nums : list (spline T)) (den : spline T) dg (beta : nat -> list T -> T) (D : list T -> Prop) :
  rwf outer -> length nums = n_coeffs (rdegrees outer) -> wf den -> degrees den = dg ->
  (forall i, i < n_coeffs (rdegrees outer) -> exists t, nth_error nums i = Some t /\ wf t /\ degrees t = dg /\
     forall xs, D xs -> value_at t xs = beta i xs) ->
  exists ts, scale_sensitivities outer nums den = Ok ts /\ length ts = n_coeffs (rdegrees outer) /\
    forall i, i < n_coeffs (rdegrees outer) -> exists t, nth_error ts i = Some t /\ rwf t /\ rdegrees t = dg /\
      weight_function t = den /\
      forall xs, D xs -> value_at (weighted_spline t) xs =
        smul (nth i (control_points (weight_function outer)) s0) (beta i xs).
Proof.
  intros (Hu & Hw & Hd) HL Hden Dden HT. unfold scale_sensitivities. rewrite HL.
  pose proof Hw as (_ & _ & _ & HLw).
  edestruct (push_loop (fun i => do n <- get nums i; do w <- get (control_points (weight_function outer)) i;
    do u <- spline_scale n w; R_mk u den) (n_coeffs (rdegrees outer))
    (fun i t => rwf t /\ rdegrees t = dg /\ weight_function t = den /\
      forall xs, D xs -> value_at (weighted_spline t) xs =
        smul (nth i (control_points (weight_function outer)) s0) (beta i xs))) as (out & E & L & N).
  - intros i Hi. destruct (HT i Hi) as (t & Et & Ht & Dt & Vt). unfold get at 1. rewrite Et. cbn [bind].
    rewrite (get_ok s0) by (rewrite HLw, Hd; exact Hi). cbn [bind]. unfold spline_scale, scale_assign.
    rewrite map_points_ok by auto. cbn [bind]. rewrite R_mk_ok by (cbn [with_cps degrees]; congruence).
    eexists. split; [reflexivity|]. cbn [weighted_spline weight_function].
    assert (Hwf : wf (with_cps t (map (fun x => vscale (nth i (control_points (weight_function outer)) s0) x) (control_points t))))
      by (apply wf_map; auto).
    split; [split; [|split]; cbn [weighted_spline weight_function with_cps degrees]; auto; congruence|].
    split; [exact Dt|]. split; auto. intros xs HD. rewrite <- Vt by auto. exact (value_scale (V := T) _ t xs Ht).
  - exists out. split; [|split; auto]. rewrite <- E. apply for_up_ext. intros i st _. destruct (get nums i); auto.
    cbn [bind]. destruct (get _ i); auto. cbn [bind]. destruct (spline_scale _ _); auto.
Qed.

Section PolyInner.
Context {O : SOrder T}.
Context (inner : spline (point T d)) (Hi : wf inner).
Context (Hcube : forall p k, In p (control_points inner) -> k < d -> in_unit (coord d p k)).
Context (outer : rspline T V) (Ho : rwf outer) (Hdim : length (rdegrees outer) = d).
Context (HF : Forall (fun p => list_sum (rdegrees outer) * p < MAXB) (degrees inner)).
Context (HM : Forall (fun p => p < MAXB) (rdegrees outer)).

Definition rpw i (xs : list T) : T := basis_at (rdegrees outer) (plist d (value_at inner xs)) i.

Lemma RP_ok : exists r, Compose_RP MAXB outer inner = Ok r /\ rwf r /\
  rdegrees r = map (Nat.mul (list_sum (rdegrees outer))) (degrees inner) /\
  Compose MAXB (weight_function outer) inner = Ok (weight_function r) /\
  (forall xs, length xs = length (degrees inner) ->
     value_at (weighted_spline r) xs = vsum (n_coeffs (rdegrees outer))
       (fun i => vscale (rpw i xs) (nth i (control_points (weighted_spline outer)) v0))) /\
  forall xs, length xs = length (degrees inner) ->
    R_Evaluate r xs = R_Evaluate outer (plist d (value_at inner xs)).
Proof.
  pose proof Ho as (Hu & Hw & Hd). unfold Compose_RP, rdegrees in *.
  destruct (Compose_ok MAXB HB d inner Hi Hcube (weighted_spline outer) Hu Hdim HF HM) as (u & Eu & Wu & Du & Vu).
  pose proof (Compose_value MAXB HB d inner Hi Hcube (weighted_spline outer) Hu Hdim HF HM u Eu) as Vu'.
  rewrite <- Hd in HF, HM, Hdim.
  destruct (Compose_ok MAXB HB d inner Hi Hcube (weight_function outer) Hw Hdim HF HM) as (w & Ew & Ww & Dw & Vw).
  pose proof (Compose_value MAXB HB d inner Hi Hcube (weight_function outer) Hw Hdim HF HM w Ew) as Vw'.
  rewrite Hd in Dw.
  rewrite Eu. cbn [bind]. rewrite Ew. cbn [bind]. rewrite R_mk_ok by congruence.
  assert (Hr : rwf (mkR u w)) by (split; [|split]; cbn; auto; congruence).
  eexists. split; [reflexivity|]. cbn [weighted_spline weight_function]. split; auto. split; [auto|]. split; auto.
  split; [exact Vu|]. intros xs HX. apply rvalue_eval; auto.
  - unfold rdegrees. cbn. rewrite Du, map_length. auto.
  - rewrite plist_length. unfold rdegrees. congruence.
Qed.

Lemma RP_sens r : Compose_RP MAXB outer inner = Ok r ->
  exists ts, ComposeSensitivity_RP MAXB outer inner = Ok ts /\ length ts = n_coeffs (rdegrees outer) /\
  forall i, i < n_coeffs (rdegrees outer) -> exists t, nth_error ts i = Some t /\ rwf t /\ rdegrees t = rdegrees r /\
    weight_function t = weight_function r /\
    forall xs, length xs = length (degrees inner) -> value_at (weighted_spline t) xs =
      smul (nth i (control_points (weight_function outer)) s0) (rpw i xs).
Proof.
  intros E. destruct RP_ok as (r' & E' & Hr & Dr & Ew & _). assert (r' = r) by congruence. subst r'.
  pose proof Ho as (Hu & Hw & Hd). unfold ComposeSensitivity_RP.
  destruct (Sensitivity_ok MAXB HB d inner Hi Hcube (weighted_spline outer) Hu Hdim HF HM) as (ts & Et & HL & HT).
  rewrite Et. cbn [bind]. rewrite Ew. cbn [bind].
  apply (scale_sens outer ts (weight_function r) (rdegrees r) (fun i xs => rpw i xs)); auto.
  - apply Hr.
  - unfold rdegrees. destruct Hr as (_ & _ & ->). reflexivity.
  - intros i Hx. destruct (HT i Hx) as (t & E1 & (H1 & H2 & H3)). exists t. split; auto. split; auto.
    split; [rewrite H2, Dr; auto|]. exact H3.
Qed.
End PolyInner.

Section RatInner.
Context (inner : rspline T (point T d)) (Hi : rwf inner).
Context (Hsz : (Z.of_nat (n_coeffs (rdegrees inner)) < 2 ^ 31)%Z).
Context (Hfuel : list_max (rdegrees inner) + 1 < fuel).

Definition rrw (dg : list nat) i (xs : list T) : T :=
  smul (spow (value_at (weight_function inner) xs) (list_sum dg)) (basis_at dg (plist d (rvalue inner xs)) i).

Lemma rrw_sum (s : spline V) xs : length (degrees s) = d -> 
  vscale (spow (value_at (weight_function inner) xs) (list_sum (degrees s))) (value_at s (plist d (rvalue inner xs))) =
  vsum (n_coeffs (degrees s)) (fun i => vscale (rrw (degrees s) i xs) (nth i (control_points s) v0)).
Proof.
  intros Hdim. unfold value_at at 2. rewrite bezier_flat by (rewrite plist_length; auto).
  rewrite <- vsum_scale. apply vsum_ext. intros i _. symmetry. apply vm_mul.
Qed.

Section PR.
Context {O : SOrder T}.
Context (outer : spline V) (Ho : wf outer) (Hdim : length (degrees outer) = d).
Context (HF : Forall (fun p => list_sum (degrees outer) * p < MAXB) (rdegrees inner)).
Context (HM : Forall (fun p => p < MAXB) (degrees outer)).
Context (Hcube : in_unit_cube inner).

Lemma PR_ok : exists r, Compose_PR MAXB fuel outer inner = Ok r /\ rwf r /\
  rdegrees r = map (Nat.mul (list_sum (degrees outer))) (rdegrees inner) /\
  ComposeDenominator MAXB outer inner = Ok (weight_function r) /\
  (forall xs, rdomain inner xs -> rdomain r xs /\
     value_at (weighted_spline r) xs = vsum (n_coeffs (degrees outer))
       (fun i => vscale (rrw (degrees outer) i xs) (nth i (control_points outer) v0)) /\
    rvalue r xs = value_at outer (plist d (rvalue inner xs))).
Proof.
  unfold Compose_PR. rewrite R_Fits_true by auto. cbn [bind negb].
  destruct (NumR_ok MAXB HB d inner Hi Hsz fuel Hfuel outer Ho Hdim HF HM) as (u & Eu & Wu & Du & Vu).
  destruct (DenR_ok MAXB HB d inner Hi outer HF) as (w & Ew & Ww & Dw & Vw).
  rewrite Eu. cbn [bind]. rewrite Ew. cbn [bind]. rewrite R_mk_ok by congruence.
  eexists. split; [reflexivity|]. cbn [weighted_spline weight_function].
  split; [split; [|split]; cbn; auto; congruence|]. split; [exact Du|]. split; auto.
  intros xs HX. assert (HN : value_at w xs <> s0).
  { rewrite Vw by apply HX. apply spow_nz. apply HX. }
  split; [|split].
  - split; [|exact HN]. unfold rdegrees in *. cbn. rewrite Du, map_length. apply HX.
  - rewrite Vu by auto. apply rrw_sum. auto.
  - unfold rvalue at 1. cbn [weighted_spline weight_function]. rewrite Vu, Vw in * by (auto; apply HX). apply cancel. auto.
Qed.

Lemma PR_sens r : Compose_PR MAXB fuel outer inner = Ok r ->
  exists ts, ComposeSensitivity_PR MAXB fuel outer inner = Ok ts /\ length ts = n_coeffs (degrees outer) /\
  forall i, i < n_coeffs (degrees outer) -> exists t, nth_error ts i = Some t /\ rwf t /\ rdegrees t = rdegrees r /\
    weight_function t = weight_function r /\
    forall xs, rdomain inner xs -> value_at (weighted_spline t) xs = smul s1 (rrw (degrees outer) i xs).
Proof.
  intros E. destruct PR_ok as (r' & E' & Hr & Dr & Ew & _). assert (r' = r) by congruence. subst r'.
  unfold ComposeSensitivity_PR. rewrite R_Fits_true by auto. cbn [bind negb].
  destruct (SensR_ok MAXB HB d inner Hi Hsz fuel Hfuel outer Ho Hdim HF HM) as (ts & Et & HL & HT).
  rewrite Et. cbn [bind]. rewrite Ew. cbn [bind].
  pose proof Ho as (_ & Hn & _). rewrite Hn. destruct Hr as (Ru & Rw & Rd).
  edestruct (push_loop (fun i => do u <- get ts i; R_mk u (weight_function r)) (n_coeffs (degrees outer))
    (fun i t => rwf t /\ rdegrees t = rdegrees r /\ weight_function t = weight_function r /\
      forall xs, rdomain inner xs -> value_at (weighted_spline t) xs = smul s1 (rrw (degrees outer) i xs)))
    as (out & Eo & L & N).
  - intros i Hx. destruct (HT i Hx) as (t & E1 & Wt & Dt & Vt). unfold get. rewrite E1. cbn [bind].
    rewrite R_mk_ok by (unfold rdegrees in *; congruence). eexists. split; [reflexivity|].
    cbn [weighted_spline weight_function]. unfold rdegrees in *. split; [split; [|split]; cbn; auto; congruence|].
    split; [cbn; congruence|]. split; auto. intros xs HX. rewrite Vt by auto. unfold rrw. ring.
  - exists out. split; [|split; auto]. rewrite <- Eo. apply for_up_ext. intros i st _. destruct (get ts i); auto.
Qed.
End PR.

Section RR.
Context (outer : rspline T V) (Ho : rwf outer) (Hdim : length (rdegrees outer) = d).
Context (HF : Forall (fun p => list_sum (rdegrees outer) * p < MAXB) (rdegrees inner)).
Context (HM : Forall (fun p => p < MAXB) (rdegrees outer)).

Lemma RR_ok : exists r, Compose_RR MAXB fuel outer inner = Ok r /\ rwf r /\
  rdegrees r = map (Nat.mul (list_sum (rdegrees outer))) (rdegrees inner) /\
  ComposeNumerator_R MAXB fuel (weight_function outer) inner = Ok (weight_function r) /\
  (forall xs, rdomain inner xs ->
     value_at (weighted_spline r) xs = vsum (n_coeffs (rdegrees outer))
       (fun i => vscale (rrw (rdegrees outer) i xs) (nth i (control_points (weighted_spline outer)) v0))) /\
  forall xs, rdomain inner xs -> R_Evaluate r xs = R_Evaluate outer (plist d (rvalue inner xs)).
Proof.
  pose proof Ho as (Hu & Hw & Hd). unfold Compose_RR.
  destruct (NumR_ok MAXB HB d inner Hi Hsz fuel Hfuel (weighted_spline outer) Hu Hdim HF HM) as (u & Eu & Wu & Du & Vu).
  assert (Hdim' : length (degrees (weight_function outer)) = d) by (rewrite Hd; exact Hdim).
  assert (HF' : Forall (fun p => list_sum (degrees (weight_function outer)) * p < MAXB) (rdegrees inner))
    by (rewrite Hd; exact HF).
  assert (HM' : Forall (fun p => p < MAXB) (degrees (weight_function outer))) by (rewrite Hd; exact HM).
  destruct (NumR_ok MAXB HB d inner Hi Hsz fuel Hfuel (weight_function outer) Hw Hdim' HF' HM') as (w & Ew & Ww & Dw & Vw).
  rewrite Hd in Dw, Vw. rewrite Eu. cbn [bind]. rewrite Ew. cbn [bind]. rewrite R_mk_ok by congruence.
  assert (Hr : rwf (mkR u w)) by (split; [|split]; cbn; auto; congruence).
  eexists. split; [reflexivity|]. cbn [weighted_spline weight_function]. split; auto. split; [auto|]. split; auto.
  split. { intros xs HX. rewrite Vu by auto. apply rrw_sum. auto. }
  intros xs HX. unfold R_Evaluate. cbn [weighted_spline weight_function].
  unfold rdegrees in *. assert (HLx : length xs = length (degrees u)) by (rewrite Du, map_length; apply HX).
  rewrite (Evaluate_value u) by auto. rewrite (Evaluate_value w) by (auto; congruence).
  rewrite !Evaluate_value by (auto; rewrite plist_length; congruence). cbn [bind].
  rewrite Vu, Vw by auto. set (K := spow _ _). assert (HK : K <> s0) by (apply spow_nz; apply HX).
  set (w0 := value_at (weight_function outer) _). change (vscale K w0) with (smul K w0).
  destruct (seqb w0 s0) eqn:Ez.
  - apply sf_eqb in Ez. rewrite Ez. replace (smul K s0) with (s0 : T) by ring. rewrite !vdiv_0. reflexivity.
  - assert (Hz : w0 <> s0) by (intros C; apply sf_eqb in C; congruence).
    rewrite !vdiv_ok; auto.
    + f_equal. rewrite <- vm_mul. f_equal. field. auto.
    + intros C. apply Hz. replace w0 with (sdiv (smul K w0) K) by (field; auto). rewrite C. field. auto.
Qed.

Lemma RR_sens r : Compose_RR MAXB fuel outer inner = Ok r ->
  exists ts, ComposeSensitivity_RR MAXB fuel outer inner = Ok ts /\ length ts = n_coeffs (rdegrees outer) /\
  forall i, i < n_coeffs (rdegrees outer) -> exists t, nth_error ts i = Some t /\ rwf t /\ rdegrees t = rdegrees r /\
    weight_function t = weight_function r /\
    forall xs, rdomain inner xs -> value_at (weighted_spline t) xs =
      smul (nth i (control_points (weight_function outer)) s0) (rrw (rdegrees outer) i xs).
Proof.
  intros E. destruct RR_ok as (r' & E' & Hr & Dr & Ew & _). assert (r' = r) by congruence. subst r'.
  pose proof Ho as (Hu & Hw & Hd). unfold ComposeSensitivity_RR.
  destruct (SensR_ok MAXB HB d inner Hi Hsz fuel Hfuel (weighted_spline outer) Hu Hdim HF HM) as (ts & Et & HL & HT).
  rewrite Et. cbn [bind]. rewrite Ew. cbn [bind].
  apply (scale_sens outer ts (weight_function r) (rdegrees r) (fun i xs => rrw (rdegrees outer) i xs)); auto.
  - apply Hr.
  - unfold rdegrees. destruct Hr as (_ & _ & ->). reflexivity.
  - intros i Hx. destruct (HT i Hx) as (t & E1 & H1 & H2 & H3). exists t. split; auto. split; auto.
    split; [rewrite H2, Dr; auto|]. exact H3.
Qed.
End RR.
End RatInner.
End Compose.

(** ** C30 *)
Lemma c30_polynomial_of_rational : forall (T V : Type) (o : SOps T) (ov : VOps T V) (F : SField T) (M : VMod T V)
  (O : SOrder T) (MAXB fuel : nat) (outer : spline V) (inner : rspline T (point T (length (degrees outer)))),
  MAXB <= 68 -> wf outer -> rwf inner -> in_unit_cube inner ->
  Forall (fun p => list_sum (degrees outer) * p < MAXB) (rdegrees inner) ->
  Forall (fun p => p < MAXB) (degrees outer) ->
  (Z.of_nat (n_coeffs (rdegrees inner)) < 2 ^ 31)%Z -> list_max (rdegrees inner) + 1 < fuel ->
  exists r, Compose_PR MAXB fuel outer inner = Ok r /\ rwf r /\
    rdegrees r = map (fun p => list_sum (degrees outer) * p) (rdegrees inner) /\
    forall xs : list T, rdomain inner xs ->
      exists p v, R_Evaluate inner xs = Ok p /\ Evaluate outer (plist _ p) = Ok v /\ R_Evaluate r xs = Ok v.
Proof.
  intros T V o ov F M O MAXB fuel outer inner HB Ho Hi HC HF HM Hsz Hf.
  destruct (PR_ok MAXB fuel HB _ inner Hi Hsz Hf outer Ho eq_refl HF HM HC) as (r & E & Hr & Dr & _ & HV).
  exists r. do 3 (split; [auto|]). intros xs HX. destruct (HV xs HX) as (A & _ & B).
  exists (rvalue inner xs), (rvalue r xs). rewrite !R_Evaluate_ok by auto.
  rewrite Evaluate_value by (auto; apply plist_length). rewrite B. auto.
Qed.

Lemma c30_rational_of_polynomial : forall (T V : Type) (o : SOps T) (ov : VOps T V) (F : SField T) (M : VMod T V)
  (O : SOrder T) (MAXB : nat) (outer : rspline T V) (inner : spline (point T (length (rdegrees outer)))),
  MAXB <= 68 -> rwf outer -> wf inner ->
  (forall p k, In p (control_points inner) -> k < length (rdegrees outer) -> in_unit (coord _ p k)) ->
  Forall (fun p => list_sum (rdegrees outer) * p < MAXB) (degrees inner) ->
  Forall (fun p => p < MAXB) (rdegrees outer) ->
  exists r, Compose_RP MAXB outer inner = Ok r /\ rwf r /\
    rdegrees r = map (fun p => list_sum (rdegrees outer) * p) (degrees inner) /\
    forall xs : list T, length xs = length (degrees inner) ->
      exists p, Evaluate inner xs = Ok p /\ R_Evaluate r xs = R_Evaluate outer (plist _ p) /\
        (rdomain outer (plist _ p) -> is_ok (R_Evaluate r xs)).
Proof.
  intros T V o ov F M O MAXB outer inner HB Ho Hi HC HF HM.
  destruct (RP_ok MAXB HB _ inner Hi HC outer Ho eq_refl HF HM) as (r & E & Hr & Dr & _ & _ & HV).
  exists r. do 3 (split; [auto|]). intros xs HX. exists (value_at inner xs). rewrite Evaluate_value by auto.
  rewrite HV by auto. do 2 (split; [auto|]). intros HD. rewrite R_Evaluate_ok by auto. eexists; reflexivity.
Qed.

Lemma c30_rational_of_rational : forall (T V : Type) (o : SOps T) (ov : VOps T V) (F : SField T) (M : VMod T V)
  (MAXB fuel : nat) (outer : rspline T V) (inner : rspline T (point T (length (rdegrees outer)))),
  MAXB <= 68 -> rwf outer -> rwf inner ->
  Forall (fun p => list_sum (rdegrees outer) * p < MAXB) (rdegrees inner) ->
  Forall (fun p => p < MAXB) (rdegrees outer) ->
  (Z.of_nat (n_coeffs (rdegrees inner)) < 2 ^ 31)%Z -> list_max (rdegrees inner) + 1 < fuel ->
  exists r, Compose_RR MAXB fuel outer inner = Ok r /\ rwf r /\
    rdegrees r = map (fun p => list_sum (rdegrees outer) * p) (rdegrees inner) /\
    forall xs : list T, rdomain inner xs ->
      exists p, R_Evaluate inner xs = Ok p /\ R_Evaluate r xs = R_Evaluate outer (plist _ p) /\
        (rdomain outer (plist _ p) -> is_ok (R_Evaluate r xs)).
Proof.
  intros T V o ov F M MAXB fuel outer inner HB Ho Hi HF HM Hsz Hf.
  destruct (RR_ok MAXB fuel HB _ inner Hi Hsz Hf outer Ho eq_refl HF HM) as (r & E & Hr & Dr & _ & _ & HV).
  exists r. do 3 (split; [auto|]). intros xs HX. exists (rvalue inner xs). rewrite R_Evaluate_ok by auto.
  rewrite HV by auto. do 2 (split; [auto|]). intros HD. rewrite R_Evaluate_ok by auto. eexists; reflexivity.
Qed.

(** ** C31 *)
Lemma c31_rejects_partial : forall (T V : Type) (o : SOps T) (ov : VOps T V) (F : SField T) (M : VMod T V)
  (O : SOrder T) (MAXB fuel d : nat) (po : spline V) (ro : rspline T V)
  (pinner : spline (point T d)) (rinner : rspline T (point T d)),
  (wf pinner -> (exists p k, In p (control_points pinner) /\ k < d /\ ~ in_unit (coord d p k)) ->
     Compose MAXB po pinner = Throw /\ ComposeSensitivity MAXB po pinner = Throw /\
     Compose_RP MAXB ro pinner = Throw /\ ComposeSensitivity_RP MAXB ro pinner = Throw) /\
  (rwf rinner -> Forall (fun w => w <> s0) (control_points (weight_function rinner)) ->
   (exists idx p k, valid_index (rdegrees rinner) idx /\ R_ControlPoint rinner idx = Ok p /\ k < d /\
      ~ in_unit (coord d p k)) ->
     Compose_PR MAXB fuel po rinner = Throw /\ ComposeSensitivity_PR MAXB fuel po rinner = Throw).
Proof.
  intros T V o ov F M O MAXB fuel d po ro pinner rinner. split.
  - intros Hi HE.
    destruct (c28_compose_outside T V o ov F O MAXB d po pinner Hi HE) as (A & B).
    destruct (c28_compose_outside T V o ov F O MAXB d (weighted_spline ro) pinner Hi HE) as (A1 & B1).
    do 2 (split; [auto|]). unfold Compose_RP, ComposeSensitivity_RP. rewrite A1, B1. auto.
  - intros Hi HZ (idx & p & k & Hv & Ep & Hk & Hn).
    destruct (c44_fits_exact T o F O d rinner Hi HZ) as (b & E & Hb).
    unfold Compose_PR, ComposeSensitivity_PR. rewrite E. cbn [bind].
    destruct b; [|auto]. exfalso. destruct (proj1 Hb eq_refl idx Hv) as (q & Eq & Hq).
    assert (q = p) by congruence. subst q. apply Hn. apply unit_coords; auto.
Qed.

(** outer: the identity of degree 1; inner: from 0 to 2. *)
Definition ex_rr_outer : rspline Qc Qc :=
  mkR (mkSpline [1] 2 [1] [Q2Qc 0; Q2Qc 1]) (mkSpline [1] 2 [1] [Q2Qc 1; Q2Qc 1]).
Definition ex_rr_inner : rspline Qc (point Qc 1) :=
  mkR (mkSpline [1] 2 [1] [(Q2Qc 0, tt); (Q2Qc 2, tt)]) (mkSpline [1] 2 [1] [Q2Qc 1; Q2Qc 1]).
Lemma c31_rejects_refuted : exists (outer : rspline Qc Qc) (inner : rspline Qc (point Qc 1)) p r ts,
  rwf outer /\ rwf inner /\ R_ControlPoint inner [1] = Ok p /\ ~ in_unit (coord 1 p 0) /\
  Compose_RR 4 4 outer inner = Ok r /\ ComposeSensitivity_RR 4 4 outer inner = Ok ts.
Proof.
  exists ex_rr_outer, ex_rr_inner, (Q2Qc 2, tt).
  eexists _, _. split; [case_|]. split; [case_|]. split; [qc_eq|].
  split; [intros (_ & C); vm_compute in C; discriminate|].
  split; vm_compute; reflexivity.
Qed.

(** ** C61 *)
Lemma c61_sensitivity_polynomial_of_rational : forall (T V : Type) (o : SOps T) (ov : VOps T V) (F : SField T)
  (M : VMod T V) (O : SOrder T) (MAXB fuel : nat) (outer : spline V)
  (inner : rspline T (point T (length (degrees outer)))),
  MAXB <= 68 -> wf outer -> rwf inner -> in_unit_cube inner ->
  Forall (fun p => list_sum (degrees outer) * p < MAXB) (rdegrees inner) ->
  Forall (fun p => p < MAXB) (degrees outer) ->
  (Z.of_nat (n_coeffs (rdegrees inner)) < 2 ^ 31)%Z -> list_max (rdegrees inner) + 1 < fuel ->
  exists ts r, ComposeSensitivity_PR MAXB fuel outer inner = Ok ts /\ length ts = length (control_points outer) /\
    Compose_PR MAXB fuel outer inner = Ok r /\
    (** moving control point i by delta *)
    (forall i P (delta : V), nth_error (control_points outer) i = Some P ->
       exists t r', nth_error ts i = Some t /\ rwf t /\
         Compose_PR MAXB fuel (with_cps outer (upd_list (control_points outer) i (vadd P delta))) inner = Ok r' /\
         forall xs : list T, rdomain inner xs ->
           exists a c, R_Evaluate r xs = Ok a /\ R_Evaluate t xs = Ok c /\
             R_Evaluate r' xs = Ok (vadd a (vscale c delta))) /\
    (** the composition is the combination of the control points *)
    (forall xs : list T, rdomain inner xs ->
       exists cs : list T, mapM (fun t => R_Evaluate t xs) ts = Ok cs /\
         R_Evaluate r xs = Ok (vsum (length ts) (fun i => vscale (nth i cs s0) (nth i (control_points outer) v0)))).
Proof.
  intros T V o ov F M O MAXB fuel outer inner HB Ho Hi HC HF HM Hsz Hf.
  destruct (PR_ok MAXB fuel HB _ inner Hi Hsz Hf outer Ho eq_refl HF HM HC) as (r & E & Hr & Dr & Er & HV).
  destruct (PR_sens MAXB fuel HB _ inner Hi Hsz Hf outer Ho eq_refl HF HM HC r E) as (ts & Es & HL & HT).
  pose proof Ho as (_ & _ & _ & HLc).
  exists ts, r. split; auto. split; [congruence|]. split; auto. split.
  - intros i P delta HP.
    set (outer' := with_cps outer _).
    assert (Ho' : wf outer') by (apply wf_upd; auto; apply length_upd).
    destruct (PR_ok MAXB fuel HB _ inner Hi Hsz Hf outer' Ho' eq_refl HF HM HC) as (r' & E' & Hr' & Dr' & Er' & HV').
    change (ComposeDenominator MAXB outer' inner) with (ComposeDenominator MAXB outer inner) in Er'.
    destruct (sens_move r Hr ts (n_coeffs (degrees outer)) (control_points outer) HLc (fun _ => s1)
      (rrw _ inner (degrees outer)) (rdomain inner)) with (i := i) (P := P) (delta := delta) (r' := r')
      as (t & Et & Ht & A); auto.
    + intros xs HX. apply HV. auto.
    + rewrite Dr, Dr'. reflexivity.
    + congruence.
    + intros xs HX. rewrite vm_1. apply HV'. auto.
    + exists t, r'. split; auto. split; auto. split; [exact E'|]. intros xs HX. apply A; auto. apply HV; auto.
  - intros xs HX. rewrite HL.
    apply (sens_sum r Hr ts (n_coeffs (degrees outer)) (control_points outer) (fun _ => s1)
      (rrw _ inner (degrees outer)) (rdomain inner)); auto.
    + intros ys HY. apply HV. auto.
    + intros. symmetry. apply vm_1.
    + apply HV; auto.
Qed.

Lemma c61_sensitivity_rational_of_polynomial : forall (T V : Type) (o : SOps T) (ov : VOps T V) (F : SField T)
  (M : VMod T V) (O : SOrder T) (MAXB : nat) (outer : rspline T V)
  (inner : spline (point T (length (rdegrees outer)))),
  MAXB <= 68 -> rwf outer -> wf inner ->
  (forall p k, In p (control_points inner) -> k < length (rdegrees outer) -> in_unit (coord _ p k)) ->
  Forall (fun p => list_sum (rdegrees outer) * p < MAXB) (degrees inner) ->
  Forall (fun p => p < MAXB) (rdegrees outer) ->
  exists ts r, ComposeSensitivity_RP MAXB outer inner = Ok ts /\ length ts = n_coeffs (rdegrees outer) /\
    Compose_RP MAXB outer inner = Ok r /\
    (** moving control point i by delta, that is the weighted one by w_i delta *)
    (forall i X w (delta : V), nth_error (control_points (weighted_spline outer)) i = Some X ->
       nth_error (control_points (weight_function outer)) i = Some w ->
       exists t r', nth_error ts i = Some t /\ rwf t /\
         Compose_RP MAXB (mkR (with_cps (weighted_spline outer) (upd_list (control_points (weighted_spline outer)) i
           (vadd X (vscale w delta)))) (weight_function outer)) inner = Ok r' /\
         forall xs : list T, length xs = length (degrees inner) -> rdomain r xs ->
           exists a c, R_Evaluate r xs = Ok a /\ R_Evaluate t xs = Ok c /\
             R_Evaluate r' xs = Ok (vadd a (vscale c delta))) /\
    (** the composition is the combination of the control points *)
    (forall (pts : list V) (xs : list T), length xs = length (degrees inner) -> rdomain r xs ->
       (forall i, i < n_coeffs (rdegrees outer) -> nth i (control_points (weighted_spline outer)) v0 =
          vscale (nth i (control_points (weight_function outer)) s0) (nth i pts v0)) ->
       exists cs : list T, mapM (fun t => R_Evaluate t xs) ts = Ok cs /\
         R_Evaluate r xs = Ok (vsum (length ts) (fun i => vscale (nth i cs s0) (nth i pts v0)))).
Proof.
  intros T V o ov F M O MAXB outer inner HB Ho Hi HC HF HM.
  destruct (RP_ok MAXB HB _ inner Hi HC outer Ho eq_refl HF HM) as (r & E & Hr & Dr & Er & HV & _).
  destruct (RP_sens MAXB HB _ inner Hi HC outer Ho eq_refl HF HM r E) as (ts & Es & HL & HT).
  pose proof Ho as (Hu & Hw & Hd). pose proof Hu as (_ & _ & _ & HLc).
  exists ts, r. do 3 (split; [auto|]). split.
  - intros i X w delta HP Hwi.
    set (outer' := mkR (with_cps _ _) _).
    assert (Ho' : rwf outer') by (split; [|split]; cbn; auto; apply wf_upd; auto; apply length_upd).
    destruct (RP_ok MAXB HB _ inner Hi HC outer' Ho' eq_refl HF HM) as (r' & E' & Hr' & Dr' & Er' & HV' & _).
    change (weight_function outer') with (weight_function outer) in Er'.
    destruct (sens_move r Hr ts (n_coeffs (rdegrees outer)) (control_points (weighted_spline outer)) HLc
      (fun i => nth i (control_points (weight_function outer)) s0)
      (rpw _ inner outer) (fun xs => length xs = length (degrees inner)))
      with (i := i) (P := X) (delta := delta) (r' := r') as (t & Et & Ht & A); auto.
    + rewrite Dr, Dr'. reflexivity.
    + congruence.
    + intros xs HX. rewrite (nth_error_nth _ _ s0 Hwi). exact (HV' xs HX).
    + exists t, r'. split; auto.
  - intros pts xs HX HR HP. rewrite HL.
    apply (sens_sum r Hr ts (n_coeffs (rdegrees outer)) (control_points (weighted_spline outer))
      (fun i => nth i (control_points (weight_function outer)) s0)
      (rpw _ inner outer) (fun xs => length xs = length (degrees inner))); auto.
Qed.

Lemma c61_sensitivity_rational_of_rational : forall (T V : Type) (o : SOps T) (ov : VOps T V) (F : SField T)
  (M : VMod T V) (MAXB fuel : nat) (outer : rspline T V)
  (inner : rspline T (point T (length (rdegrees outer)))),
  MAXB <= 68 -> rwf outer -> rwf inner ->
  Forall (fun p => list_sum (rdegrees outer) * p < MAXB) (rdegrees inner) ->
  Forall (fun p => p < MAXB) (rdegrees outer) ->
  (Z.of_nat (n_coeffs (rdegrees inner)) < 2 ^ 31)%Z -> list_max (rdegrees inner) + 1 < fuel ->
  exists ts r, ComposeSensitivity_RR MAXB fuel outer inner = Ok ts /\ length ts = n_coeffs (rdegrees outer) /\
    Compose_RR MAXB fuel outer inner = Ok r /\
    (** moving control point i by delta, that is the weighted one by w_i delta *)
    (forall i X w (delta : V), nth_error (control_points (weighted_spline outer)) i = Some X ->
       nth_error (control_points (weight_function outer)) i = Some w ->
       exists t r', nth_error ts i = Some t /\ rwf t /\
         Compose_RR MAXB fuel (mkR (with_cps (weighted_spline outer) (upd_list (control_points (weighted_spline outer)) i
           (vadd X (vscale w delta)))) (weight_function outer)) inner = Ok r' /\
         forall xs : list T, rdomain inner xs -> rdomain r xs ->
           exists a c, R_Evaluate r xs = Ok a /\ R_Evaluate t xs = Ok c /\
             R_Evaluate r' xs = Ok (vadd a (vscale c delta))) /\
    (** the composition is the combination of the control points *)
    (forall (pts : list V) (xs : list T), rdomain inner xs -> rdomain r xs ->
       (forall i, i < n_coeffs (rdegrees outer) -> nth i (control_points (weighted_spline outer)) v0 =
          vscale (nth i (control_points (weight_function outer)) s0) (nth i pts v0)) ->
       exists cs : list T, mapM (fun t => R_Evaluate t xs) ts = Ok cs /\
         R_Evaluate r xs = Ok (vsum (length ts) (fun i => vscale (nth i cs s0) (nth i pts v0)))).
Proof.
  intros T V o ov F M MAXB fuel outer inner HB Ho Hi HF HM Hsz Hf.
  destruct (RR_ok MAXB fuel HB _ inner Hi Hsz Hf outer Ho eq_refl HF HM) as (r & E & Hr & Dr & Er & HV & _).
  destruct (RR_sens MAXB fuel HB _ inner Hi Hsz Hf outer Ho eq_refl HF HM r E) as (ts & Es & HL & HT).
  pose proof Ho as (Hu & Hw & Hd). pose proof Hu as (_ & _ & _ & HLc).
  exists ts, r. do 3 (split; [auto|]). split.
  - intros i X w delta HP Hwi.
    set (outer' := mkR (with_cps _ _) _).
    assert (Ho' : rwf outer') by (split; [|split]; cbn; auto; apply wf_upd; auto; apply length_upd).
    destruct (RR_ok MAXB fuel HB _ inner Hi Hsz Hf outer' Ho' eq_refl HF HM) as (r' & E' & Hr' & Dr' & Er' & HV' & _).
    change (weight_function outer') with (weight_function outer) in Er'.
    destruct (sens_move r Hr ts (n_coeffs (rdegrees outer)) (control_points (weighted_spline outer)) HLc
      (fun i => nth i (control_points (weight_function outer)) s0)
      (rrw _ inner (rdegrees outer)) (rdomain inner))
      with (i := i) (P := X) (delta := delta) (r' := r') as (t & Et & Ht & A); auto.
    + rewrite Dr, Dr'. reflexivity.
    + congruence.
    + intros xs HX. rewrite (nth_error_nth _ _ s0 Hwi). exact (HV' xs HX).
    + exists t, r'. split; auto.
  - intros pts xs HX HR HP. rewrite HL.
    apply (sens_sum r Hr ts (n_coeffs (rdegrees outer)) (control_points (weighted_spline outer))
      (fun i => nth i (control_points (weight_function outer)) s0)
      (rrw _ inner (rdegrees outer)) (rdomain inner)); auto.
Qed.
