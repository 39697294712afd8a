(** C118: subdivision at arbitrary planes with bounded exponents. *)
From Coq Require Import Arith Lia List ZArith NArith Bool Reals Lra Psatz.
From Verif Require Import Prelude Scalar Spec SpecSpline Sums Order Coord ModelBasis ModelSpline ModelRational
  ModelRound SpecRound ModelIEEE SpecIEEE ProofIndex ProofEval ProofSplit ProofRound ProofRoundEval ProofRoundOps ProofIEEE ProofIEEEEval
  ClaimsU ClaimsD ClaimsRoundOps ClaimsIEEE ModelIEEESplit ProofIEEESplit ProofIEEESplit2.
Import ListNotations.
Local Open Scope R_scope.

Section Ok.
Context (F : format) (rnd : R -> R) (HF : reasonable F) (HR : nearest_on_grid F rnd) (degs : list nat) (k : nat) (Hk : (k < length degs)%nat).
Lemma ok_points d (s : spline (point R d)) x : wf s /\ degrees s = degs /\ machine_points F s -> on_grid F x -> 0 < x < 1 ->
  exists l r, SplitAtPosition (o := SOps_ieee F rnd) (ov := VOps_point fl d (o := SOps_ieee F rnd)) (fin_spline s) (Fin x) k = Ok [fin_spline l; fin_spline r] /\
    (wf l /\ degrees l = degs /\ machine_points F l) /\ wf r /\ degrees r = degs /\ machine_points F r.
Proof using HF HR Hk.
  intros (W & D & M) Gx Hx.
  destruct (c90_split F rnd d s x k HF HR W ltac:(now rewrite D) Gx Hx M) as (l & r & l0 & r0 & E & _ & W1 & W2 & D1 & D2 & M1 & M2 & _).
  exists l, r. split; [exact E|]. repeat split; auto; try apply W1; try apply W2; congruence.
Qed.
Lemma ok_scalars (s : spline R) x : wf s /\ degrees s = degs /\ machine_coeffs F s -> on_grid F x -> 0 < x < 1 ->
  exists l r, SplitAtPosition (o := SOps_ieee F rnd) (ov := VOps_scalar fl (o := SOps_ieee F rnd)) (fin_spline_s s) (Fin x) k = Ok [fin_spline_s l; fin_spline_s r] /\
    (wf l /\ degrees l = degs /\ machine_coeffs F l) /\ wf r /\ degrees r = degs /\ machine_coeffs F r.
Proof using HF HR Hk.
  intros (W & D & M) Gx Hx. assert (HB : coeff_bound s (omega F)).
  { intros i Hi. assert (HM : Forall (machine F) (control_points s)) by exact M. rewrite Forall_forall in HM. apply HM, nth_In.
    replace (length (control_points s)) with (n_coeffs (degrees s)) by (symmetry; apply W). exact Hi. }
  destruct (c90_split_scalar F rnd s x k HF HR W ltac:(now rewrite D) Gx Hx M _ HB) as (l & r & l0 & r0 & E & _ & W1 & W2 & D1 & D2 & M1 & M2 & _).
  exists l, r. split; [exact E|]. repeat split; auto; try apply W1; try apply W2; congruence.
Qed.
End Ok.
Lemma arguments F planes : (forall t, In (Fin t) planes -> on_grid F t) -> Forall (argument F) planes.
Proof. intros H. apply Forall_forall. intros [t|] Hx; cbn; auto. Qed.

Lemma c118_split : forall F rnd d (s : spline (point R d)) x k, reasonable F -> nearest_on_grid F rnd ->
  wf s -> (k < length (degrees s))%nat -> machine_points F s -> (forall t, x = Fin t -> on_grid F t) ->
  SplitAtPosition_ieee F rnd (fin_spline s) x k = Throw /\ ~ (exists t, x = Fin t /\ 0 < t < 1) \/
  exists t l r, x = Fin t /\ 0 < t < 1 /\ SplitAtPosition_ieee F rnd (fin_spline s) x k = Ok [fin_spline l; fin_spline r] /\
    machine_points F l /\ machine_points F r.
Proof.
  intros F rnd d s x k HF HR W Hk HM Hx.
  destruct (split_any F rnd (ow := VOps_point fl d (o := SOps_ieee F rnd)) fin_spline k _ (ok_points F rnd HF HR (degrees s) k Hk d) s x) as [T|(t & l & r & E & Ht & ES & (_ & _ & M1) & _ & _ & M2)]; auto.
  - destruct x; cbn; auto.
  - left. split; [exact T|]. intros (t & -> & Ht). destruct (ok_points F rnd HF HR (degrees s) k Hk d s t) as (l & r & E & _); auto. rewrite T in E. discriminate.
  - right. exists t, l, r. auto.
Qed.
Lemma c118_split_scalar : forall F rnd (s : spline R) x k, reasonable F -> nearest_on_grid F rnd ->
  wf s -> (k < length (degrees s))%nat -> machine_coeffs F s -> (forall t, x = Fin t -> on_grid F t) ->
  SplitAtPosition_ieee_s F rnd (fin_spline_s s) x k = Throw /\ ~ (exists t, x = Fin t /\ 0 < t < 1) \/
  exists t l r, x = Fin t /\ 0 < t < 1 /\ SplitAtPosition_ieee_s F rnd (fin_spline_s s) x k = Ok [fin_spline_s l; fin_spline_s r] /\
    machine_coeffs F l /\ machine_coeffs F r.
Proof.
  intros F rnd s x k HF HR W Hk HM Hx.
  destruct (split_any F rnd (ow := VOps_scalar fl (o := SOps_ieee F rnd)) fin_spline_s k _ (ok_scalars F rnd HF HR (degrees s) k Hk) s x) as [T|(t & l & r & E & Ht & ES & (_ & _ & M1) & _ & _ & M2)]; auto.
  - destruct x; cbn; auto.
  - left. split; [exact T|]. intros (t & -> & Ht). destruct (ok_scalars F rnd HF HR (degrees s) k Hk s t) as (l & r & E & _); auto. rewrite T in E. discriminate.
  - right. exists t, l, r. auto.
Qed.
Lemma c118_splits : forall F rnd d (s : spline (point R d)) planes k, reasonable F -> nearest_on_grid F rnd ->
  wf s -> (k < length (degrees s))%nat -> machine_points F s -> (forall t, In (Fin t) planes -> on_grid F t) ->
  SplitAtPositions_ieee F rnd (fin_spline s) planes k = Throw \/
  exists parts ts, SplitAtPositions_ieee F rnd (fin_spline s) planes k = Ok (map fin_spline parts) /\ length parts = S (length planes) /\
    Forall (fun q => wf q /\ degrees q = degrees s /\ machine_points F q) parts /\
    planes = map Fin ts /\ forall i, (i < length ts)%nat -> 0 < nth i ts 0 < 1 /\ ((S i < length ts)%nat -> nth i ts 0 < nth (S i) ts 0).
Proof.
  intros F rnd d s planes k HF HR W Hk HM Hx.
  exact (any_splits F HF rnd HR (ow := VOps_point fl d (o := SOps_ieee F rnd)) fin_spline k _ (ok_points F rnd HF HR (degrees s) k Hk d) planes (arguments F planes Hx) s (conj W (conj eq_refl HM))).
Qed.
Lemma c118_splits_scalar : forall F rnd (s : spline R) planes k, reasonable F -> nearest_on_grid F rnd ->
  wf s -> (k < length (degrees s))%nat -> machine_coeffs F s -> (forall t, In (Fin t) planes -> on_grid F t) ->
  SplitAtPositions_ieee_s F rnd (fin_spline_s s) planes k = Throw \/
  exists parts ts, SplitAtPositions_ieee_s F rnd (fin_spline_s s) planes k = Ok (map fin_spline_s parts) /\ length parts = S (length planes) /\
    Forall (fun q => wf q /\ degrees q = degrees s /\ machine_coeffs F q) parts /\
    planes = map Fin ts /\ forall i, (i < length ts)%nat -> 0 < nth i ts 0 < 1 /\ ((S i < length ts)%nat -> nth i ts 0 < nth (S i) ts 0).
Proof.
  intros F rnd s planes k HF HR W Hk HM Hx.
  exact (any_splits F HF rnd HR (ow := VOps_scalar fl (o := SOps_ieee F rnd)) fin_spline_s k _ (ok_scalars F rnd HF HR (degrees s) k Hk) planes (arguments F planes Hx) s (conj W (conj eq_refl HM))).
Qed.
