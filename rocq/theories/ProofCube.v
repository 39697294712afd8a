(** Coordinate extraction, bounding corners and the unit-cube operations. *)
From Coq Require Import Arith Lia List ZArith NArith Bool Ring Field QArith Qcanon.
From Verif Require Import Prelude Scalar Spec SpecSpline Sums Order Coord ModelBasis ModelSpline ModelPoint
  Examples ProofIndex ProofBasis ProofEval ProofElevate ProofUnique ClaimsA ProofArith ClaimsB.
Import ListNotations.
Local Open Scope nat_scope.

Section Mono.
Context {T : Type} {o : SOps T} {F : SField T} {O : SOrder T}.
Add Field Tfield : (@sf_th T o F).

Lemma bezier_mono degs : forall (xs : list T) (f g : nat -> T),
  length xs = length degs -> Forall in_unit xs ->
  (forall i, i < n_coeffs degs -> sle (f i) (g i)) ->
  sle (bezier degs xs f) (bezier degs xs g).
Proof.
  induction degs as [|p degs IH]; intros [|x xs] f g HL HU H; try discriminate.
  - simpl. apply H. unfold n_coeffs; simpl; lia.
  - inversion HU; subst. cbn [bezier]. rewrite <- !ssum_vsum. apply ssum_le. intros j Hj.
    apply sle_mul_l; [apply bernstein_nonneg; auto|]. apply IH; auto.
    intros i Hi. apply H. unfold n_coeffs in *. cbn [map]. unfold prod in *. cbn [fold_right]. nia.
Qed.

Lemma bezier_bounds degs (xs : list T) (f : nat -> T) lo hi :
  length xs = length degs -> Forall in_unit xs ->
  (forall i, i < n_coeffs degs -> sle lo (f i) /\ sle (f i) hi) ->
  sle lo (bezier degs xs f) /\ sle (bezier degs xs f) hi.
Proof.
  intros HL HU H. split.
  - rewrite <- (bezier_const degs xs lo HL). apply bezier_mono; auto. intros; apply H; auto.
  - rewrite <- (bezier_const degs xs hi HL). apply bezier_mono; auto. intros; apply H; auto.
Qed.

(** Running extremum. *)
Fixpoint pickn (pick : T -> T -> T) (f : nat -> T) (n : nat) : T :=
  match n with 0 => f 0 | S n' => pick (pickn pick f n') (f (S n')) end.

Lemma pickn_max f n : (forall i, i <= n -> sle (f i) (pickn smax f n)) /\
  exists i, i <= n /\ f i = pickn smax f n.
Proof.
  induction n as [|n (IH1 & (j & Hj & Ej))]; simpl.
  - split; [intros i Hi; replace i with 0 by lia; apply sle_refl|exists 0; auto].
  - change (smax (pickn smax f n) (f (S n))) with (if sltb (pickn smax f n) (f (S n)) then f (S n) else pickn smax f n). destruct (sltb (pickn smax f n) (f (S n))) eqn:E.
    + split; [|exists (S n); auto]. intros i Hi.
      destruct (Nat.eq_dec i (S n)) as [->|]; [apply sle_refl|].
      eapply sle_trans; [apply IH1; lia|]. apply slt_sle. exact E.
    + split; [|exists j; split; [lia|auto]]. intros i Hi.
      destruct (Nat.eq_dec i (S n)) as [->|]; [exact E|apply IH1; lia].
Qed.
Lemma pickn_min f n : (forall i, i <= n -> sle (pickn smin f n) (f i)) /\
  exists i, i <= n /\ f i = pickn smin f n.
Proof.
  induction n as [|n (IH1 & (j & Hj & Ej))]; simpl.
  - split; [intros i Hi; replace i with 0 by lia; apply sle_refl|exists 0; auto].
  - change (smin (pickn smin f n) (f (S n))) with (if sltb (f (S n)) (pickn smin f n) then f (S n) else pickn smin f n). destruct (sltb (f (S n)) (pickn smin f n)) eqn:E.
    + split; [|exists (S n); auto]. intros i Hi.
      destruct (Nat.eq_dec i (S n)) as [->|]; [apply sle_refl|].
      eapply sle_trans; [apply slt_sle; exact E|apply IH1; lia].
    + split; [|exists j; split; [lia|auto]]. intros i Hi.
      destruct (Nat.eq_dec i (S n)) as [->|]; [exact E|apply IH1; lia].
Qed.
End Mono.

Section Cube.
Context {T : Type} {o : SOps T} {F : SField T} {d : nat}.
Add Field Tfield2 : (@sf_th T o F).

(** Coordinate [k] of control point [i]. *)
Definition cpc (s : spline (point T d)) (i k : nat) : T := coord d (nth i (control_points s) v0) k.

Lemma wf_pos {V} (s : spline V) : wf s -> 0 < length (control_points s).
Proof. intros (_ & _ & _ & ->). apply n_coeffs_pos. Qed.

Lemma Corner_ok pick (s : spline (point T d)) : wf s ->
  exists m, Corner pick s = Ok m /\ forall k, k < d ->
    coord d m k = pickn pick (fun i => cpc s i k) (length (control_points s) - 1).
Proof.
  intros Hw. pose proof (wf_pos s Hw) as Hp. destruct Hw as (_ & Hn & _ & Hc). unfold Corner.
  rewrite Hn, <- Hc. rewrite (proj2 (Nat.eqb_neq _ 0)) by lia.
  rewrite (get_ok v0) by auto. cbn [bind].
  edestruct (for_up_inv (fun n m => forall k, k < d ->
    coord d m k = pickn pick (fun i => cpc s i k) (n - 1))) as (m & E & H).
  3:{ exists m. split; [exact E|]. intros k Hk. rewrite H by auto. f_equal. lia. }
  - intros k Hk. reflexivity.
  - cbv beta. intros n m Hn' H.
    edestruct (point_loop d (fun k a => do c <- get (control_points s) n; do b <- pget d c k; Ok (pick a b))
      (fun k => pick (coord d m k) (cpc s n k)) m) as (m' & E & Hm').
    { intros k Hk. rewrite (get_ok v0) by lia. cbn [bind]. rewrite pget_ok by auto. reflexivity. }
    exists m'. split.
    + rewrite <- E. apply for_up_ext. intros k a _. rewrite (get_ok v0) by lia. cbn [bind].
      destruct (pget d a k); auto. cbn [bind]. destruct (pget d (nth n (control_points s) v0) k); auto.
    + intros k Hk. rewrite Hm', H by auto. replace (S n - 1) with (S (n - 1)) by lia. cbn [pickn].
      replace (S (n - 1)) with n by lia. reflexivity.
Qed.

Lemma corner_max {O : SOrder T} (s : spline (point T d)) : wf s ->
  exists m, MaximumCorner s = Ok m /\ forall k, k < d ->
    (forall i, i < length (control_points s) -> sle (cpc s i k) (coord d m k)) /\
    exists i, i < length (control_points s) /\ cpc s i k = coord d m k.
Proof.
  intros Hw. pose proof (wf_pos s Hw). destruct (Corner_ok smax s Hw) as (m & E & H0).
  exists m. split; [exact E|]. intros k Hk. rewrite H0 by auto.
  destruct (pickn_max (fun i => cpc s i k) (length (control_points s) - 1)) as (H1 & (j & Hj & Ej)).
  split; [intros; apply H1; lia|]. exists j. split; [lia|auto].
Qed.
Lemma corner_min {O : SOrder T} (s : spline (point T d)) : wf s ->
  exists m, MinimumCorner s = Ok m /\ forall k, k < d ->
    (forall i, i < length (control_points s) -> sle (coord d m k) (cpc s i k)) /\
    exists i, i < length (control_points s) /\ cpc s i k = coord d m k.
Proof.
  intros Hw. pose proof (wf_pos s Hw). destruct (Corner_ok smin s Hw) as (m & E & H0).
  exists m. split; [exact E|]. intros k Hk. rewrite H0 by auto.
  destruct (pickn_min (fun i => cpc s i k) (length (control_points s) - 1)) as (H1 & (j & Hj & Ej)).
  split; [intros; apply H1; lia|]. exists j. split; [lia|auto].
Qed.

Lemma corners_fit_ok (mx mn : point T d) :
  exists b, corners_fit mx mn = Ok b /\
    (b = true <-> forall k, k < d -> sle (coord d mx k) s1 /\ sle s0 (coord d mn k)).
Proof.
  unfold corners_fit.
  edestruct (for_up_inv (fun n b => b = true <-> forall k, k < n ->
    sle (coord d mx k) s1 /\ sle s0 (coord d mn k))) as (b & E & H).
  3:{ exists b. split; [exact E|exact H]. }
  - split; auto. intros; lia.
  - cbv beta. intros n b Hn H. destruct b; cbn [negb].
    + rewrite !pget_ok by lia. cbn [bind]. eexists. split; [reflexivity|].
      rewrite negb_true_iff, orb_false_iff. unfold sle. split.
      * intros (A & B) k Hk. destruct (Nat.eq_dec k n) as [->|]; auto. apply H; auto. lia.
      * intros Hk. apply Hk. lia.
    + exists false. split; auto. split; [discriminate|]. intros Hk. apply H. intros; apply Hk. lia.
Qed.

Lemma FitsIntoUnitCube_ok {O : SOrder T} (s : spline (point T d)) : wf s ->
  exists b, FitsIntoUnitCube s = Ok b /\
    (b = true <-> forall i k, i < length (control_points s) -> k < d -> in_unit (cpc s i k)).
Proof.
  intros Hw. unfold FitsIntoUnitCube.
  destruct (corner_max s Hw) as (mx & -> & Hx). destruct (corner_min s Hw) as (mn & -> & Hm). cbn [bind].
  destruct (corners_fit_ok mx mn) as (b & -> & H). exists b. split; auto. rewrite H. split.
  - intros A i k Hi Hk. destruct (A k Hk). destruct (Hx k Hk) as (X & _). destruct (Hm k Hk) as (Y & _).
    split; eapply sle_trans; eauto.
  - intros A k Hk. destruct (Hx k Hk) as (_ & (i & Hi & <-)). destruct (Hm k Hk) as (_ & (j & Hj & <-)).
    split; apply A; auto.
Qed.

Lemma TransposeAndScale_ok (s : spline (point T d)) (t sc : point T d) : wf s ->
  exists r, TransposeAndScale s t sc = Ok r /\ wf r /\ degrees r = degrees s /\
    length (control_points r) = length (control_points s) /\
    forall i k, i < length (control_points s) -> k < d ->
      cpc r i k = smul (sadd (coord d t k) (cpc s i k)) (coord d sc k).
Proof.
  intros (Hd & Hn & Ho & Hc). unfold TransposeAndScale. rewrite Hn, <- Hc.
  edestruct (for_up_inv (fun n c => length c = length (control_points s) /\ forall i k,
    i < length (control_points s) -> k < d ->
    coord d (nth i c v0) k = if i <? n then smul (sadd (coord d t k) (cpc s i k)) (coord d sc k)
                             else cpc s i k)) as (c & E & HL & H).
  3:{ rewrite E. cbn [bind]. eexists. split; [reflexivity|].
      split; [exact (conj Hd (conj Hn (conj Ho (eq_trans HL Hc))))|]. split; [auto|]. split; [auto|].
      intros i k Hi Hk. unfold cpc at 1. cbn [with_cps control_points]. rewrite H by auto.
      rewrite (proj2 (Nat.ltb_lt _ _)) by lia. auto. }
  - split; auto.
  - cbv beta. intros n c Hn' (HL & H).
    edestruct (for_up_inv (fun j c' => length c' = length (control_points s) /\ forall i k,
      i < length (control_points s) -> k < d ->
      coord d (nth i c' v0) k = if (i <? n) || ((i =? n) && (k <? j))
                               then smul (sadd (coord d t k) (cpc s i k)) (coord d sc k)
                               else cpc s i k)) as (c' & E & HL' & H').
    3:{ exists c'. split; [exact E|]. split; auto. intros i k Hi Hk. rewrite H' by auto.
        replace ((i <? n) || ((i =? n) && (k <? 0 + d))) with (i <? S n); auto.
        apply eq_true_iff_eq. rewrite orb_true_iff, andb_true_iff, !Nat.ltb_lt, Nat.eqb_eq. lia. }
    + split; auto. intros i k Hi Hk. rewrite H by auto.
      rewrite (proj2 (Nat.ltb_ge k 0)) by lia. rewrite andb_false_r, orb_false_r. auto.
    + cbv beta. intros j c' Hj (HL' & H').
      rewrite (get_ok v0) by lia. cbn [bind]. rewrite !pget_ok by lia. cbn [bind].
      destruct (pset_ok d (nth n c' v0) j
        (smul (sadd (coord d t j) (coord d (nth n c' v0) j)) (coord d sc j))) as (q & E & _); [lia|].
      rewrite E. cbn [bind]. eexists. split; [apply set_ok; lia|].
      split; [now rewrite length_upd|]. intros i k Hi Hk. rewrite nth_upd by lia.
      destruct (Nat.eqb_spec i n) as [->|Hne].
      * rewrite Nat.ltb_irrefl. rewrite (coord_pset _ _ _ _ _ _ E) by lia. rewrite !H' by lia.
        rewrite Nat.ltb_irrefl, Nat.eqb_refl. cbn [orb andb].
        destruct (Nat.eqb_spec k j) as [->|].
        -- rewrite Nat.ltb_irrefl, (proj2 (Nat.ltb_lt j (S j))) by lia. auto.
        -- replace (k <? S j) with (k <? j); auto. apply eq_true_iff_eq. rewrite !Nat.ltb_lt. lia.
      * rewrite H' by lia. rewrite (proj2 (Nat.eqb_neq i n)) by auto. cbn [andb]. auto.
Qed.

Lemma invert_loop (p : point T d) :
  (forall k, k < d -> coord d p k <> s0) ->
  exists r, for_up 0 d (fun i_dim sc => do x <- pget d sc i_dim; do y <- divS s1 x; pset d sc i_dim y) p = Ok r /\
    forall k, k < d -> coord d r k = sdiv s1 (coord d p k).
Proof.
  intros H. apply (point_loop d (fun _ x => divS s1 x) (fun k => sdiv s1 (coord d p k)) p).
  intros i Hi. apply divS_ok. auto.
Qed.

Lemma invert_loop_bad k n : forall lo (p : point T d),
  lo <= k < lo + n -> lo + n = d -> (forall j, lo <= j -> j < d -> coord d p j <> s0 \/ k <= j) ->
  coord d p k = s0 ->
  for_up lo n (fun i_dim sc => do x <- pget d sc i_dim; do y <- divS s1 x; pset d sc i_dim y) p = NonFinite.
Proof.
  induction n; intros lo p Hk Hd H H0; [lia|]. cbn [for_up]. rewrite pget_ok by lia. cbn [bind].
  destruct (Nat.eq_dec lo k) as [->|Hne].
  - rewrite H0. unfold divS. rewrite seqb_refl. reflexivity.
  - rewrite divS_ok by (destruct (H lo); auto; lia). cbn [bind].
    destruct (pset_ok d p lo (sdiv s1 (coord d p lo))) as (q & E & _); [lia|]. rewrite E. cbn [bind].
    apply IHn; try lia.
    + intros j Hj Hjd. rewrite (coord_pset _ _ _ _ _ _ E) by lia.
      rewrite (proj2 (Nat.eqb_neq j lo)) by lia. apply H; lia.
    + rewrite (coord_pset _ _ _ _ _ _ E) by lia. rewrite (proj2 (Nat.eqb_neq k lo)) by lia. auto.
Qed.

(** The first zero coordinate. *)
Lemma first_zero (p : point T d) k : k < d -> coord d p k = s0 ->
  exists j, j < d /\ coord d p j = s0 /\ forall i, i < j -> coord d p i <> s0.
Proof.
  revert k. induction k as [k IH] using lt_wf_ind. intros Hk H0.
  destruct (existsb (fun i => seqb (coord d p i) s0) (seq 0 k)) eqn:E.
  - apply existsb_exists in E. destruct E as (i & Hi & E). apply in_seq in Hi.
    apply sf_eqb in E. apply (IH i); auto; lia.
  - exists k. split; auto. split; auto. intros i Hi Hz.
    assert (existsb (fun i => seqb (coord d p i) s0) (seq 0 k) = true); [|congruence].
    apply existsb_exists. exists i. split; [apply in_seq; lia|]. apply sf_eqb; auto.
Qed.

Lemma FitIntoUnitCube_ok {O : SOrder T} (s : spline (point T d)) : wf s ->
  (forall k, k < d -> exists i j, i < length (control_points s) /\ j < length (control_points s) /\
     cpc s i k <> cpc s j k) ->
  exists r mn mx, FitIntoUnitCube s = Ok r /\ wf r /\ degrees r = degrees s /\
    MinimumCorner s = Ok mn /\ MaximumCorner s = Ok mx /\
    length (control_points r) = length (control_points s) /\
    forall k, k < d -> slt (coord d mn k) (coord d mx k) /\
      forall i, i < length (control_points s) ->
      cpc r i k = sdiv (ssub (cpc s i k) (coord d mn k)) (ssub (coord d mx k) (coord d mn k)).
Proof.
  intros Hw Hne. unfold FitIntoUnitCube.
  destruct (corner_max s Hw) as (mx & -> & Hx). destruct (corner_min s Hw) as (mn & -> & Hm). cbn [bind].
  assert (HLT : forall k, k < d -> slt (coord d mn k) (coord d mx k)).
  { intros k Hk. destruct (Hne k Hk) as (i & j & Hi & Hj & Hij).
    destruct (Hx k Hk) as (X & _). destruct (Hm k Hk) as (Y & _).
    destruct (so_total (coord d mn k) (coord d mx k)) as [|[E|E]]; auto; exfalso.
    - apply Hij. apply sle_antisym.
      + eapply sle_trans; [apply X; auto|]. rewrite <- E. auto.
      + eapply sle_trans; [apply X; auto|]. rewrite <- E. auto.
    - assert (L : sle (coord d mn k) (coord d mx k)) by (eapply sle_trans; [apply (Y i)|]; auto).
      unfold sle in L. unfold slt in E. congruence. }
  assert (HNZ : forall k, k < d -> ssub (coord d mx k) (coord d mn k) <> s0).
  { intros k Hk E. pose proof (HLT k Hk) as L. apply slt_sub in L. rewrite E in L.
    apply (so_irrefl _ L). }
  destruct (invert_loop (vsub mx mn)) as (sc & -> & Hsc).
  { intros k Hk. rewrite coord_sub. auto. }
  cbn [bind]. destruct (TransposeAndScale_ok s (vopp mn) sc Hw) as (r & E & Hr & Hd & HL & H).
  exists r, mn, mx. do 6 (split; [auto|]). intros k Hk. split; [auto|]. intros i Hi.
  rewrite H, Hsc, coord_sub, coord_opp by auto. field. apply HNZ; auto.
Qed.

Lemma FitIntoUnitCube_flat {O : SOrder T} (s : spline (point T d)) k : wf s -> k < d ->
  (forall i j, i < length (control_points s) -> j < length (control_points s) -> cpc s i k = cpc s j k) ->
  FitIntoUnitCube s = NonFinite.
Proof.
  intros Hw Hk He. unfold FitIntoUnitCube.
  destruct (corner_max s Hw) as (mx & -> & Hx). destruct (corner_min s Hw) as (mn & -> & Hm). cbn [bind].
  assert (E0 : coord d (vsub mx mn) k = s0).
  { rewrite coord_sub. destruct (Hx k Hk) as (_ & (i & Hi & <-)). destruct (Hm k Hk) as (_ & (j & Hj & <-)).
    rewrite (He i j Hi Hj). ring. }
  destruct (first_zero _ k Hk E0) as (j & Hj & Ej & Hlt).
  rewrite (invert_loop_bad j); auto; try lia.
  intros i _ Hi. destruct (le_lt_dec j i); auto.
Qed.

Lemma ExtractDimension_ok (s : spline (point T d)) k : wf s -> k < d ->
  exists r, ExtractDimension s k = Ok r /\ wf r /\ degrees r = degrees s /\
    control_points r = map (fun p => coord d p k) (control_points s).
Proof.
  intros Hw Hk. unfold ExtractDimension. rewrite (proj2 (Nat.leb_gt d k)) by auto.
  rewrite Spline_deg_ok by apply Hw. cbn [bind mk control_points].
  destruct Hw as (Hd & Hn & Ho & Hc). rewrite Hn.
  edestruct (for_up_inv (fun n c => length c = n_coeffs (degrees s) /\
    forall i, i < n -> nth i c s0 = cpc s i k)) as (c & E & HL & H).
  3:{ rewrite E. cbn [bind]. eexists. split; [reflexivity|]. cbn [mk with_cps degrees control_points].
      split; [repeat split; cbn; auto|]. split; [auto|].
      apply (list_ext s0); [rewrite map_length; lia|]. intros i Hi. rewrite H by lia. unfold cpc.
      rewrite (nth_indep _ s0 (coord d v0 k)) by (rewrite map_length; lia).
      rewrite (map_nth (fun p => coord d p k)). auto. }
  - split; [apply repeat_length|]. intros; lia.
  - cbv beta. intros i c Hi (HL & H). rewrite (get_ok v0) by lia. cbn [bind].
    rewrite pget_ok by auto. cbn [bind]. eexists. split; [apply set_ok; lia|].
    split; [rewrite length_upd; auto|]. intros j Hj. rewrite nth_upd by lia.
    destruct (Nat.eqb_spec j i) as [->|]; auto. apply H. lia.
Qed.

End Cube.
