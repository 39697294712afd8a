(** Claims about sums, differences, scaling, aliasing, equality, repeated elevation and
    point arithmetic. *)
From Coq Require Import Arith Lia List ZArith NArith Bool Ring Field QArith Qcanon Permutation.
From Verif Require Import Prelude Scalar Spec SpecSpline Sums Order Coord ModelBasis ModelSpline ModelPoint
  Examples ProofIndex ProofBasis ProofEval ProofElevate ProofUnique ClaimsA ProofArith.
Import ListNotations.
Local Open Scope nat_scope.

Lemma c17_add : forall (T V : Type) (o : SOps T) (ov : VOps T V) (F : SField T) (M : VMod T V)
  (a b : spline V), wf a -> wf b -> length (degrees a) = length (degrees b) ->
  (Z.of_nat (n_coeffs (map2 Nat.max (degrees a) (degrees b))) < 2 ^ 31)%Z ->
  exists r, returns (fun fuel => spline_add fuel a b) r /\ wf r /\
    degrees r = map2 Nat.max (degrees a) (degrees b) /\
    forall xs : list T, length xs = length (degrees a) ->
      exists x y, Evaluate a xs = Ok x /\ Evaluate b xs = Ok y /\ Evaluate r xs = Ok (vadd x y).
Proof.
  intros T V o ov F M a b Ha Hb HL Hs. symmetry in HL. fold (max_degs (degrees a) (degrees b)) in *.
  set (N := Nat.max 2 (S (list_max (max_degs (degrees a) (degrees b))))).
  assert (H : forall fuel, N <= fuel -> exists r, spline_add fuel a b = Ok r /\ wf r /\
    degrees r = max_degs (degrees a) (degrees b) /\
    forall xs : list T, length xs = length (degrees a) ->
      value_at r xs = vadd (value_at a xs) (value_at b xs)).
  { intros fuel Hf. destruct (add_ok fuel a b) as (r & E & E'); auto; [unfold N in Hf; lia|unfold N in Hf; lia|].
    destruct (add_assign_ok fuel a b) as (r' & E2 & H2); auto; [unfold N in Hf; lia|].
    exists r. split; auto. replace r with r' by congruence. auto. }
  destruct (H N (le_n N)) as (r & E & Hw & Hd & HV).
  assert (HLr : length (degrees r) = length (degrees a)) by (rewrite Hd; apply length_max_degs; auto).
  exists r. split; [|split; [auto|split; [auto|]]].
  - exists N. intros fuel Hf. destruct (H fuel Hf) as (r' & E' & Hw' & Hd' & HV').
    rewrite E'. f_equal. apply spline_unique; auto; [congruence|].
    intros xs HX. rewrite HV, HV' by congruence. reflexivity.
  - intros xs HX. exists (value_at a xs), (value_at b xs).
    rewrite !Evaluate_value by (auto; congruence). rewrite HV by auto. auto.
Qed.

Lemma c18_add_assign : forall (T V : Type) (o : SOps T) (ov : VOps T V) (F : SField T) (M : VMod T V)
  (a b : spline V), wf a -> wf b -> length (degrees a) = length (degrees b) ->
  (Z.of_nat (n_coeffs (map2 Nat.max (degrees a) (degrees b))) < 2 ^ 31)%Z ->
  exists r, returns (fun fuel => spline_add_assign fuel a b) r /\
    returns (fun fuel => spline_add fuel a b) r /\ wf r /\
    degrees r = map2 Nat.max (degrees a) (degrees b) /\
    forall xs : list T, length xs = length (degrees a) ->
      exists x y, Evaluate a xs = Ok x /\ Evaluate b xs = Ok y /\ Evaluate r xs = Ok (vadd x y).
Proof.
  intros T V o ov F M a b Ha Hb HL Hs.
  destruct (c17_add T V o ov F M a b Ha Hb HL Hs) as (r & (N & HN) & H).
  exists r. split; [|split; [exists N; auto|auto]].
  set (N' := Nat.max N (Nat.max 2 (S (list_max (max_degs (degrees a) (degrees b)))))).
  exists N'. intros fuel Hf. destruct (add_ok fuel a b) as (r' & E & E'); auto; try (unfold N' in Hf; lia).
  rewrite HN in E by (unfold N' in Hf; lia). congruence.
Qed.

Lemma c18_sub_assign : forall (T V : Type) (o : SOps T) (ov : VOps T V) (F : SField T) (M : VMod T V)
  (a b : spline V), wf a -> wf b -> length (degrees a) = length (degrees b) ->
  (Z.of_nat (n_coeffs (map2 Nat.max (degrees a) (degrees b))) < 2 ^ 31)%Z ->
  exists r, returns (fun fuel => spline_sub_assign fuel a b) r /\ wf r /\
    degrees r = map2 Nat.max (degrees a) (degrees b) /\
    forall xs : list T, length xs = length (degrees a) ->
      exists x y, Evaluate a xs = Ok x /\ Evaluate b xs = Ok y /\ Evaluate r xs = Ok (vsub x y).
Proof.
  intros T V o ov F M a b Ha Hb HL Hs. symmetry in HL. fold (max_degs (degrees a) (degrees b)) in *.
  set (N := S (list_max (max_degs (degrees a) (degrees b)))).
  destruct (sub_assign_ok N a b) as (r & E & Hw & Hd & HV); auto.
  assert (HLr : length (degrees r) = length (degrees a)) by (rewrite Hd; apply length_max_degs; auto).
  exists r. split; [|split; [auto|split; [auto|]]].
  - exists N. intros fuel Hf.
    destruct (sub_assign_ok fuel a b) as (r' & E' & Hw' & Hd' & HV'); auto.
    rewrite E'. f_equal. apply spline_unique; auto; [congruence|].
    intros xs HX. rewrite HV, HV' by congruence. reflexivity.
  - intros xs HX. exists (value_at a xs), (value_at b xs).
    rewrite !Evaluate_value by (auto; congruence). rewrite HV by auto. auto.
Qed.

Lemma c19_sub_refuted : exists a b : spline Qc,
  wf a /\ wf b /\ length (degrees a) = length (degrees b) /\
  forall fuel r, spline_sub fuel a b <> Ok r.
Proof.
  exists (mkSpline [1] 2 [1] [Q2Qc 0; Q2Qc 1]), (mkSpline [2] 3 [1] [Q2Qc 0; Q2Qc 1; Q2Qc 3]).
  split; [case_|]. split; [case_|]. split; [reflexivity|].
  apply (sub_diverges _ _ 0); [case_|reflexivity|simpl; lia|simpl; lia].
Qed.

Lemma c19_sub_never_returns : forall (T V : Type) (o : SOps T) (ov : VOps T V)
  (a b : spline V) k, wf a -> length (degrees a) = length (degrees b) -> k < length (degrees a) ->
  nth k (degrees a) 0 < nth k (degrees b) 0 ->
  forall fuel r, spline_sub fuel a b <> Ok r.
Proof. intros. eapply sub_diverges; eauto. Qed.

Lemma c19_sub_partial : forall (T V : Type) (o : SOps T) (ov : VOps T V) (F : SField T) (M : VMod T V)
  (a b : spline V), wf a -> wf b -> Forall2 (fun p q => q <= p) (degrees a) (degrees b) ->
  (Z.of_nat (n_coeffs (degrees a)) < 2 ^ 31)%Z ->
  exists r, returns (fun fuel => spline_sub fuel a b) r /\ wf r /\ degrees r = degrees a /\
    forall xs : list T, length xs = length (degrees a) ->
      exists x y, Evaluate a xs = Ok x /\ Evaluate b xs = Ok y /\ Evaluate r xs = Ok (vsub x y).
Proof.
  intros T V o ov F M a b Ha Hb Hle Hs.
  assert (Hle' : le_degs (degrees b) (degrees a)) by (clear - Hle; induction Hle; constructor; auto).
  pose proof (le_degs_length _ _ Hle') as HL.
  set (N := S (list_max (degrees a))).
  destruct (sub_ok N a b) as (r & E & Hw & Hd & HV); auto.
  exists r. split; [|split; [auto|split; [auto|]]].
  - exists N. intros fuel Hf.
    destruct (sub_ok fuel a b) as (r' & E' & Hw' & Hd' & HV'); auto.
    rewrite E'. f_equal. apply spline_unique; auto; [congruence|].
    intros xs HX. rewrite HV, HV' by congruence. reflexivity.
  - intros xs HX. exists (value_at a xs), (value_at b xs).
    rewrite !Evaluate_value by (auto; congruence). rewrite HV by auto. auto.
Qed.

Lemma acts_intro {T V} {o : SOps T} {ov : VOps T V} {F : SField T} {M : VMod T V} (s : spline V) (h g : V -> V) :
  wf s -> (forall xs : list T, length xs = length (degrees s) ->
    value_at (with_cps s (map h (control_points s))) xs = g (value_at s xs)) ->
  acts_pointwise (T := T) s (Ok (with_cps s (map h (control_points s)))) g.
Proof.
  intros Hw H. eexists; split; [reflexivity|]. pose proof (wf_map h s Hw) as Hw'.
  split; auto. split; [reflexivity|]. intros xs HX. exists (value_at s xs).
  rewrite !Evaluate_value by auto. rewrite H by auto. auto.
Qed.

Section OppSub.
Context {T V : Type} {o : SOps T} {ov : VOps T V} {F : SField T} {M : VMod T V}.
Add Ring Ering : (@ext_ring T V o ov F M).
Lemma opp_sub (a b : V) : vopp (vsub a b) = vsub b a.
Proof. to_ext. ring. Qed.
End OppSub.

Lemma c21_pointwise : forall (T V : Type) (o : SOps T) (ov : VOps T V) (F : SField T) (M : VMod T V)
  (s : spline V) (c : T) (p : V), wf s ->
  acts_pointwise (T := T) s (scale_assign s c) (fun a => vscale c a) /\
  acts_pointwise (T := T) s (spline_scale s c) (fun a => vscale c a) /\
  acts_pointwise (T := T) s (shift_assign s p) (fun a => vadd a p) /\
  acts_pointwise (T := T) s (spline_shift s p) (fun a => vadd a p) /\
  acts_pointwise (T := T) s (unshift_assign s p) (fun a => vsub a p) /\
  acts_pointwise (T := T) s (spline_unshift s p) (fun a => vsub a p) /\
  acts_pointwise (T := T) s (spline_neg s) (fun a => vopp a) /\
  acts_pointwise (T := T) s (point_minus_spline p s) (fun a => vsub p a).
Proof.
  intros T V o ov F M s c p Hw.
  unfold spline_scale, spline_shift, spline_unshift, scale_assign, shift_assign, unshift_assign,
    point_minus_spline, spline_unshift, unshift_assign.
  rewrite !map_points_ok by auto. cbn [bind]. rewrite spline_neg_ok by auto.
  rewrite spline_neg_ok by (apply wf_map; auto). cbn [with_cps control_points].
  repeat (split; [apply acts_intro; auto; intros;
    first [apply value_scale; auto|apply value_shift; auto|apply value_unshift; auto|apply value_neg; auto]|]).
  change (with_cps (with_cps s (map (fun x => vsub x p) (control_points s))) (map vopp (map (fun x => vsub x p) (control_points s))))
    with (with_cps s (map vopp (map (fun x => vsub x p) (control_points s)))).
  rewrite map_map. apply acts_intro; auto. intros xs HX.
  unfold value_at. cbn [with_cps degrees control_points].
  assert (E : forall a b : V, vopp (vsub a b) = vsub b a) by (intros; apply opp_sub).
  transitivity (vopp (value_at (with_cps s (map (fun x => vsub x p) (control_points s))) xs)).
  - unfold value_at. cbn [with_cps degrees control_points]. rewrite <- bezier_opp.
    apply bezier_ext. intros i Hi. rewrite !nth_map_pts by auto. reflexivity.
  - rewrite value_unshift by auto. apply E.
Qed.

(** Loop of a mutating operator whose argument is entry [k] of the object itself: the
    entries after [k] see the already modified argument. *)
Definition alias_result {A} (op : A -> A -> A) (d : A) (k : nat) (l : list A) : list A :=
  map (fun i => op (nth i l d) (if i <=? k then nth k l d else op (nth k l d) (nth k l d)))
    (seq 0 (length l)).

Lemma map_points_self_ok {V} (op : V -> V -> V) (d : V) (s : spline V) k :
  wf s -> k < length (control_points s) ->
  map_points_self op k s = Ok (with_cps s (alias_result op d k (control_points s))).
Proof.
  intros (Hd & Hn & Ho & Hc) Hk. unfold map_points_self. rewrite Hn, <- Hc.
  set (l := control_points s) in *.
  edestruct (for_up_inv (fun n c => length c = length l /\
    forall j, j < length l -> nth j c d =
      if j <? n then nth j (alias_result op d k l) d else nth j l d)) as (c & E & HL & HN).
  3:{ rewrite E. cbn [bind]. do 2 f_equal. apply (list_ext d).
      - rewrite HL. unfold alias_result. rewrite map_length, seq_length. auto.
      - intros j Hj. rewrite HN by lia. rewrite (proj2 (Nat.ltb_lt _ _)) by lia. auto. }
  - split; auto.
  - cbv beta. intros i c Hi (HL & HN).
    rewrite (get_ok d c i) by lia. cbn [bind]. rewrite (get_ok d c k) by lia. cbn [bind].
    eexists. split; [apply set_ok; lia|]. split; [rewrite length_upd; auto|].
    intros j Hj. rewrite nth_upd by lia. rewrite !HN by lia.
    assert (HA : forall j, j < length l -> nth j (alias_result op d k l) d =
      op (nth j l d) (if j <=? k then nth k l d else op (nth k l d) (nth k l d))).
    { intros j' Hj'. unfold alias_result. rewrite nth_map_seq by auto. auto. }
    destruct (Nat.eqb_spec j i) as [->|Hne].
    + rewrite Nat.ltb_irrefl, (proj2 (Nat.ltb_lt i (S i))) by lia. rewrite !HA by auto.
      destruct (Nat.leb_spec i k); [rewrite (proj2 (Nat.ltb_ge k i)) by lia; auto|].
      rewrite (proj2 (Nat.ltb_lt k i)) by lia. rewrite Nat.leb_refl. auto.
    + destruct (Nat.ltb_spec j i); destruct (Nat.ltb_spec j (S i)); auto; lia.
Qed.

Lemma c22_alias_spline_refuted : exists (s : spline Qc) k c r1 r2 r3 q1 q2 q3,
  wf s /\ get (control_points s) k = Ok c /\
  map_points_self vadd k s = Ok r1 /\ shift_assign s c = Ok q1 /\ r1 <> q1 /\
  map_points_self vsub k s = Ok r2 /\ unshift_assign s c = Ok q2 /\ r2 <> q2 /\
  map_points_self (fun x a => vscale a x) k s = Ok r3 /\ scale_assign s c = Ok q3 /\ r3 <> q3.
Proof.
  exists (mkSpline [1] 2 [1] [Q2Qc 2; Q2Qc 3]), 0.
  do 7 eexists. split; [case_|]. split; [reflexivity|].
  do 2 (split; [reflexivity|]). split; [vm_compute; congruence|].
  do 2 (split; [reflexivity|]). split; [vm_compute; congruence|].
  do 2 (split; [reflexivity|]). vm_compute; congruence.
Qed.

(** What the aliased call computes, for every operator [op] and position [k]. *)
Lemma c22_alias_spline_partial : forall (V : Type) (op : V -> V -> V) (d : V) (s : spline V) k c,
  wf s -> get (control_points s) k = Ok c ->
  exists r, map_points_self op k s = Ok r /\ degrees r = degrees s /\
    length (control_points r) = length (control_points s) /\
    forall i, i < length (control_points s) ->
      nth i (control_points r) d =
      op (nth i (control_points s) d) (if i <=? k then c else op c c).
Proof.
  intros V op d s k c Hw Hg. pose proof (proj1 (get_inv d _ _ _ Hg)) as Hk.
  rewrite (get_ok d) in Hg by auto. injection Hg as <-.
  eexists. split; [apply (map_points_self_ok op d); auto|]. cbn [with_cps degrees control_points].
  split; [auto|]. split; [unfold alias_result; now rewrite map_length, seq_length|].
  intros i Hi. unfold alias_result. rewrite nth_map_seq by auto. auto.
Qed.

(** Aliasing the last control point is harmless. *)
Lemma c22_alias_last : forall (T V : Type) (o : SOps T) (ov : VOps T V) (op : V -> V -> V) (s : spline V) k c,
  wf s -> get (control_points s) k = Ok c -> S k = length (control_points s) ->
  map_points_self op k s = map_points (fun x => op x c) s.
Proof.
  intros T V o ov op s k c Hw Hg Hk.
  rewrite (map_points_self_ok op c) by (auto; lia). rewrite (map_points_ok (T := T)) by auto. do 2 f_equal.
  unfold alias_result. rewrite (get_ok c) in Hg by lia. injection Hg as Hc.
  apply (list_ext c); [now rewrite !map_length, seq_length|].
  intros i Hi. rewrite map_length, seq_length in Hi. rewrite nth_map_seq by auto.
  rewrite (proj2 (Nat.leb_le i k)) by lia. rewrite Hc.
  rewrite (nth_indep (map (fun x => op x c) (control_points s)) c (op c c)) by (rewrite map_length; auto).
  rewrite (map_nth (fun x => op x c)). auto.
Qed.

Lemma c22_alias_point_refuted : exists (p : point Qc 2) c r q,
  pget 2 p 0 = Ok c /\ point_scale_assign_self p 0 = Ok r /\ point_scale_assign p c = Ok q /\ r <> q.
Proof.
  exists (Q2Qc 2, (Q2Qc 3, tt)). do 3 eexists. do 3 (split; [reflexivity|]). vm_compute. congruence.
Qed.

(** Loop over the coordinates that overwrites coordinate [i] with [f i p_i]. *)
Lemma point_loop {T} {o : SOps T} d (f : nat -> T -> res T) (g : nat -> T) (p : point T d) :
  (forall i, i < d -> f i (coord d p i) = Ok (g i)) ->
  exists r, for_up 0 d (fun i p => do a <- pget d p i; do b <- f i a; pset d p i b) p = Ok r /\
    forall i, i < d -> coord d r i = g i.
Proof.
  intros H.
  edestruct (for_up_inv (fun n q => forall j, j < d ->
    coord d q j = if j <? n then g j else coord d p j)) as (q & E & HN).
  3:{ exists q. split; [exact E|]. intros i Hi. rewrite HN by auto.
      rewrite (proj2 (Nat.ltb_lt _ _)) by lia. auto. }
  - auto.
  - cbv beta. intros i q Hi HN. rewrite pget_ok by lia. cbn [bind].
    rewrite HN, Nat.ltb_irrefl, H by lia. cbn [bind].
    destruct (pset_ok d q i (g i)) as (q' & E & _); [lia|]. exists q'. split; auto.
    intros j Hj. rewrite (coord_pset _ _ _ _ _ _ E) by lia. rewrite HN by auto.
    destruct (Nat.eqb_spec j i) as [->|]; [rewrite (proj2 (Nat.ltb_lt i (S i))) by lia; auto|].
    destruct (Nat.ltb_spec j i); destruct (Nat.ltb_spec j (S i)); auto; lia.
Qed.

(** The same loop with coordinate [k] of the point itself as argument of every step. *)
Lemma point_loop_alias {T} {o : SOps T} d (op : T -> T -> T) k (p : point T d) : k < d ->
  exists r, for_up 0 d (fun i p =>
      do a <- pget d p i; do scale <- pget d p k; pset d p i (op a scale)) p = Ok r /\
    forall i, i < d -> coord d r i =
      op (coord d p i) (if i <=? k then coord d p k else op (coord d p k) (coord d p k)).
Proof.
  intros Hk. set (c := coord d p k). set (g := fun i => op (coord d p i) (if i <=? k then c else op c c)).
  edestruct (for_up_inv (fun n q => forall j, j < d ->
    coord d q j = if j <? n then g j else coord d p j)) as (q & E & HN).
  3:{ exists q. split; [exact E|]. intros i Hi. rewrite HN by auto.
      rewrite (proj2 (Nat.ltb_lt _ _)) by lia. auto. }
  - auto.
  - cbv beta. intros i q Hi HN. rewrite !pget_ok by lia. cbn [bind].
    rewrite !HN, Nat.ltb_irrefl by lia.
    assert (Ek : (if k <? i then g k else coord d p k) = if i <=? k then c else op c c).
    { destruct (Nat.ltb_spec k i); destruct (Nat.leb_spec i k); try lia; unfold g;
        rewrite ?Nat.leb_refl; auto. }
    rewrite Ek. fold (g i).
    destruct (pset_ok d q i (g i)) as (q' & E & _); [lia|]. exists q'. split; auto.
    intros j Hj. rewrite (coord_pset _ _ _ _ _ _ E) by lia. rewrite HN by auto.
    destruct (Nat.eqb_spec j i) as [->|]; [rewrite (proj2 (Nat.ltb_lt i (S i))) by lia; auto|].
    destruct (Nat.ltb_spec j i); destruct (Nat.ltb_spec j (S i)); auto; lia.
Qed.

(** [p *= p[k]]: what is computed, for every dimension. *)
Lemma c22_alias_point_partial : forall (T : Type) (o : SOps T) (d : nat) (p : point T d) k, k < d ->
  exists r, point_scale_assign_self p k = Ok r /\
    forall i, i < d -> coord d r i =
      smul (coord d p i) (if i <=? k then coord d p k else smul (coord d p k) (coord d p k)).
Proof. intros T o d p k Hk. exact (point_loop_alias d smul k p Hk). Qed.

(** [p /= p[k]], [p += p] and [p -= p] are those of an independent copy of the argument. *)
Lemma c22_alias_point_safe : forall (T : Type) (o : SOps T) (d : nat) (p : point T d),
  (forall k c, pget d p k = Ok c -> point_div_assign_self p k = point_div_assign p c) /\
  point_add_assign_self p = point_add_assign p p /\ point_sub_assign_self p = point_sub_assign p p.
Proof.
  intros T o d p. split; [|split].
  - intros k c H. unfold point_div_assign_self. rewrite H. reflexivity.
  - destruct (point_loop d (fun i a => Ok (sadd a (coord d p i))) (fun i => sadd (coord d p i) (coord d p i)) p)
      as (r & E & HR); [reflexivity|].
    destruct (point_loop d (fun i a => Ok (sadd a a)) (fun i => sadd (coord d p i) (coord d p i)) p)
      as (r' & E' & HR'); [reflexivity|].
    assert (E1 : point_add_assign p p = Ok r).
    { rewrite <- E. unfold point_add_assign. apply for_up_ext. intros i q Hi. rewrite !pget_ok by lia. reflexivity. }
    assert (E2 : point_add_assign_self p = Ok r').
    { rewrite <- E'. unfold point_add_assign_self. apply for_up_ext. intros i q Hi. rewrite !pget_ok by lia. reflexivity. }
    rewrite E1, E2. f_equal. apply (point_ext d). intros i Hi. rewrite HR, HR' by auto. reflexivity.
  - destruct (point_loop d (fun i a => Ok (ssub a (coord d p i))) (fun i => ssub (coord d p i) (coord d p i)) p)
      as (r & E & HR); [reflexivity|].
    destruct (point_loop d (fun i a => Ok (ssub a a)) (fun i => ssub (coord d p i) (coord d p i)) p)
      as (r' & E' & HR'); [reflexivity|].
    assert (E1 : point_sub_assign p p = Ok r).
    { rewrite <- E. unfold point_sub_assign. apply for_up_ext. intros i q Hi. rewrite !pget_ok by lia. reflexivity. }
    assert (E2 : point_sub_assign_self p = Ok r').
    { rewrite <- E'. unfold point_sub_assign_self. apply for_up_ext. intros i q Hi. rewrite !pget_ok by lia. reflexivity. }
    rewrite E1, E2. f_equal. apply (point_ext d). intros i Hi. rewrite HR, HR' by auto. reflexivity.
Qed.

Lemma point_sum_loop {T} {o : SOps T} d (f : nat -> T) (body : nat -> T -> res T) :
  (forall i r, i < d -> body i r = Ok (sadd r (f i))) ->
  for_up 0 d body s0 = Ok (ssum d f).
Proof.
  intros H. edestruct (for_up_inv (fun n r => r = ssum n f)) as (r & E & HN).
  3:{ rewrite E. now rewrite HN. }
  - reflexivity.
  - cbv beta. intros i r Hi ->. rewrite H by lia. eexists. split; reflexivity.
Qed.

Section Pointwise.
Context {T : Type} {o : SOps T} {F : SField T}.
Add Field Tfield2 : (@sf_th T o F).

Lemma smul_m1 (a : T) : smul a (sopp s1) = sopp a. Proof. ring. Qed.
Lemma smul_comm (a b : T) : smul a b = smul b a. Proof. ring. Qed.
Lemma smul_inv (a c : T) : c <> s0 -> smul a (sdiv s1 c) = sdiv a c. Proof. intros. field. auto. Qed.
Lemma smul_lin (a b c r : T) :
  smul (sadd (smul c a) b) r = sadd (smul c (smul a r)) (smul b r). Proof. ring. Qed.
Lemma smul_00 : smul s0 s0 = (s0 : T). Proof. ring. Qed.

Lemma add_loop d (p q : point T d) :
  exists r, point_add p q = Ok r /\ forall k, k < d -> coord d r k = sadd (coord d p k) (coord d q k).
Proof.
  unfold point_add, point_add_assign.
  edestruct (point_loop d (fun i a => do b <- pget d q i; Ok (sadd a b))
    (fun k => sadd (coord d p k) (coord d q k)) p) as (r & E & H).
  - intros i Hi. rewrite pget_ok by auto. reflexivity.
  - exists r. split; auto. rewrite <- E. apply for_up_ext. intros i a _.
    destruct (pget d a i); auto. cbn [bind]. destruct (pget d q i); auto.
Qed.
Lemma sub_loop d (p q : point T d) :
  exists r, point_sub p q = Ok r /\ forall k, k < d -> coord d r k = ssub (coord d p k) (coord d q k).
Proof.
  unfold point_sub, point_sub_assign.
  edestruct (point_loop d (fun i a => do b <- pget d q i; Ok (ssub a b))
    (fun k => ssub (coord d p k) (coord d q k)) p) as (r & E & H).
  - intros i Hi. rewrite pget_ok by auto. reflexivity.
  - exists r. split; auto. rewrite <- E. apply for_up_ext. intros i a _.
    destruct (pget d a i); auto. cbn [bind]. destruct (pget d q i); auto.
Qed.
Lemma scale_loop d (p : point T d) c :
  exists r, point_scale p c = Ok r /\ forall k, k < d -> coord d r k = smul (coord d p k) c.
Proof.
  unfold point_scale, point_scale_assign.
  apply (point_loop d (fun i a => Ok (smul a c)) (fun k => smul (coord d p k) c) p). auto.
Qed.

Lemma dot_loop d (p q : point T d) :
  point_dot p q = Ok (ssum d (fun k => smul (coord d p k) (coord d q k))).
Proof.
  unfold point_dot. apply (point_sum_loop d (fun k => smul (coord d p k) (coord d q k))).
  intros i r Hi. rewrite !pget_ok by auto. reflexivity.
Qed.
End Pointwise.

Lemma c58_componentwise : forall (T : Type) (o : SOps T) (F : SField T) (d : nat) (p q : point T d) (c : T),
  (exists r, point_add p q = Ok r /\ forall k, k < d -> coord d r k = sadd (coord d p k) (coord d q k)) /\
  (exists r, point_sub p q = Ok r /\ forall k, k < d -> coord d r k = ssub (coord d p k) (coord d q k)) /\
  (exists r, point_neg p = Ok r /\ forall k, k < d -> coord d r k = sopp (coord d p k)) /\
  (exists r, point_scale p c = Ok r /\ forall k, k < d -> coord d r k = smul c (coord d p k)) /\
  (c <> s0 ->
   exists r, point_div p c = Ok r /\ forall k, k < d -> coord d r k = sdiv (coord d p k) c) /\
  ((forall k, k < d -> coord d p k <> s0) ->
   exists r, scalar_div_point c p = Ok r /\ forall k, k < d -> coord d r k = sdiv c (coord d p k)).
Proof.
  intros T o F d p q c.
  split; [apply add_loop|]. split; [apply sub_loop|].
  split; [|split; [|split]].
  - destruct (scale_loop d p (sopp s1)) as (r & E & H). exists r. split; auto.
    intros k Hk. rewrite H by auto. apply smul_m1.
  - destruct (scale_loop d p c) as (r & E & H). exists r. split; auto.
    intros k Hk. rewrite H by auto. apply smul_comm.
  - intros Hc. unfold point_div, point_div_assign. rewrite divS_ok by auto. cbn [bind].
    destruct (scale_loop d p (sdiv s1 c)) as (r & E & H). exists r. split; auto.
    intros k Hk. rewrite H by auto. apply smul_inv; auto.
  - intros Hp. unfold scalar_div_point.
    edestruct (for_up_inv (fun n q => forall j, j < n -> coord d q j = sdiv c (coord d p j))) as (r & E & HN).
    3:{ exists r. split; [exact E|]. intros; apply HN; auto. }
    + intros; lia.
    + cbv beta. intros i r Hi HN. rewrite pget_ok by lia. cbn [bind].
      rewrite divS_ok by (apply Hp; lia). cbn [bind].
      destruct (pset_ok d r i (sdiv c (coord d p i))) as (r' & E & _); [lia|].
      exists r'. split; auto. intros j Hj. rewrite (coord_pset _ _ _ _ _ _ E) by lia.
      destruct (Nat.eqb_spec j i) as [->|]; auto. apply HN. lia.
Qed.

(** The operations used by the spline model are those of class Point. *)
Lemma c58_point_module : forall (T : Type) (o : SOps T) (F : SField T) (d : nat) (p q : point T d) (c : T),
  point_add p q = Ok (vadd p q) /\ point_sub p q = Ok (vsub p q) /\
  point_neg p = Ok (vopp p) /\ point_scale p c = Ok (vscale c p).
Proof.
  intros T o F d p q c.
  destruct (c58_componentwise T o F d p q c) as ((r1 & E1 & H1) & (r2 & E2 & H2) & (r3 & E3 & H3) & (r4 & E4 & H4) & _).
  rewrite E1, E2, E3, E4. repeat split; f_equal; apply point_ext; intros k Hk.
  - rewrite H1, coord_add by auto. auto.
  - rewrite H2, coord_sub by auto. auto.
  - rewrite H3, coord_opp by auto. auto.
  - rewrite H4, coord_scale by auto. auto.
Qed.

Lemma c58_dot : forall (T : Type) (o : SOps T) (F : SField T) (d : nat) (p q r : point T d) (c : T),
  point_dot p q = Ok (ssum d (fun k => smul (coord d p k) (coord d q k))) /\
  point_dot p q = point_dot q p /\
  (exists x y, point_dot p r = Ok x /\ point_dot q r = Ok y /\
     point_dot (vadd (vscale c p) q) r = Ok (sadd (smul c x) y)) /\
  point_sqnorm p = point_dot p p.
Proof.
  intros T o F d p q r c. rewrite !dot_loop. split; auto. split; [|split].
  - f_equal. apply ssum_ext. intros k Hk. apply smul_comm.
  - eexists _, _. do 2 (split; [reflexivity|]). f_equal.
    rewrite <- ssum_scale, <- ssum_add. apply ssum_ext. intros k Hk.
    rewrite coord_add, coord_scale. apply smul_lin.
  - unfold point_sqnorm. apply (point_sum_loop d (fun k => smul (coord d p k) (coord d p k))).
    intros i r' Hi. rewrite !pget_ok by auto. reflexivity.
Qed.

Lemma c58_norm : forall (T : Type) (o : SOps T) (F : SField T) (O : SOrder T) (d : nat) (p : point T d),
  exists n, point_sqnorm p = Ok n /\ sle s0 n /\ (n = s0 <-> p = v0).
Proof.
  intros T o F O d p.
  destruct (c58_dot T o F d p p p s0) as (E & _ & _ & E'). rewrite E'. eexists. split; [exact E|].
  assert (HP : sle s0 (ssum d (fun k => smul (coord d p k) (coord d p k)))).
  { apply ssum_nonneg. intros. apply ssq_nonneg. }
  split; auto. split.
  - intros H0. apply point_ext. intros k Hk. rewrite coord_0.
    destruct (seqb (coord d p k) s0) eqn:E0; [apply sf_eqb; auto|]. exfalso.
    apply seqb_neq in E0.
    assert (Hs : slt s0 (ssum d (fun k => smul (coord d p k) (coord d p k)))).
    { apply (ssum_pos d _ k); auto; [intros; apply ssq_nonneg|].
      destruct (sle_or_lt (smul (coord d p k) (coord d p k)) s0) as [Hle|]; auto. exfalso.
      apply E0. pose proof (sle_antisym _ _ Hle (ssq_nonneg _)) as Hz.
      destruct (smul_eq0 _ _ Hz); auto. }
    rewrite H0 in Hs. apply (so_irrefl _ Hs).
  - intros ->. apply ssum_zero. intros k Hk. rewrite coord_0. apply smul_00.
Qed.

Lemma list_eqb_iff {A} (e : A -> A -> bool) (l m : list A) :
  (forall a b, e a b = true <-> a = b) -> list_eqb e l m = true <-> l = m.
Proof.
  intros H. revert m; induction l as [|a l IH]; intros [|b m]; simpl; try (split; congruence).
  rewrite andb_true_iff, H, IH. split; [intros [-> ->]; auto|injection 1; auto].
Qed.

Lemma spline_eqb_iff {T V} {o : SOps T} {ov : VOps T V} {M : VMod T V} (a b : spline V) :
  spline_eqb (T := T) a b = true <-> degrees a = degrees b /\ control_points a = control_points b.
Proof.
  unfold spline_eqb. destruct (list_eqb Nat.eqb (degrees b) (degrees a)) eqn:E.
  - apply (list_eqb_iff Nat.eqb) in E; [|apply Nat.eqb_eq]. rewrite list_eqb_iff by apply (vm_eqb).
    split; [auto|]. intros [_ H]; auto.
  - split; [discriminate|]. intros [H _]. rewrite H in E.
    rewrite (proj2 (list_eqb_iff Nat.eqb _ _ Nat.eqb_eq) eq_refl) in E. discriminate.
Qed.

Lemma c59_equality : forall (T V : Type) (o : SOps T) (ov : VOps T V) (M : VMod T V) (a b c : spline V),
  (spline_eqb (T := T) a b = true <-> degrees a = degrees b /\ control_points a = control_points b) /\
  spline_eqb (T := T) a a = true /\
  (spline_eqb (T := T) a b = true -> spline_eqb (T := T) b a = true) /\
  (spline_eqb (T := T) a b = true -> spline_eqb (T := T) b c = true -> spline_eqb (T := T) a c = true) /\
  (wf a -> wf b -> spline_eqb (T := T) a b = true -> a = b).
Proof.
  intros. rewrite !spline_eqb_iff. split; [tauto|]. split; [auto|]. split; [intuition auto|].
  split; [intuition congruence|].
  intros (_ & Hn & Ho & _) (_ & Hn' & Ho' & _) [Hd Hc]. destruct a, b; simpl in *. subst. auto.
Qed.

Lemma c59_evaluate : forall (T V : Type) (o : SOps T) (ov : VOps T V) (F : SField T) (M : VMod T V)
  (a b : spline V), wf a -> wf b -> spline_eqb (T := T) a b = true ->
  forall xs : list T, Evaluate a xs = Evaluate b xs.
Proof.
  intros T V o ov F M a b Ha Hb E xs.
  destruct (c59_equality T V o ov M a b a) as (_ & _ & _ & _ & H). rewrite (H Ha Hb E). auto.
Qed.

(** Degrees after elevating along the directions [ks]. *)
Lemma elevate_many_ok {T V} {o : SOps T} {ov : VOps T V} {F : SField T} {M : VMod T V} ks :
  forall s : spline V, wf s -> Forall (fun k => k < length (degrees s)) ks ->
  (Z.of_nat (n_coeffs (map (fun k => nth k (degrees s) 0%nat + count_occ Nat.eq_dec ks k)%nat
     (seq 0 (length (degrees s))))) < 2 ^ 31)%Z ->
  exists r, elevate_many s ks = Ok r /\ wf r /\
    degrees r = map (fun k => nth k (degrees s) 0 + count_occ Nat.eq_dec ks k) (seq 0 (length (degrees s))) /\
    forall xs : list T, length xs = length (degrees s) -> value_at r xs = value_at s xs.
Proof.
  induction ks as [|k ks IH]; intros s Hw HF HB.
  - exists s. split; [reflexivity|]. split; auto. split; auto.
    apply (list_ext 0); [now rewrite map_length, seq_length|]. intros i Hi.
    rewrite nth_map_seq by auto. simpl. lia.
  - inversion HF as [|? ? Hk HF']; subst.
    set (degs' := upd_list (degrees s) k (S (nth k (degrees s) 0))).
    assert (HL : length degs' = length (degrees s)) by apply length_upd.
    assert (Hdd : map (fun j => nth j degs' 0 + count_occ Nat.eq_dec ks j) (seq 0 (length degs')) =
      map (fun j => nth j (degrees s) 0 + count_occ Nat.eq_dec (k :: ks) j) (seq 0 (length (degrees s)))).
    { rewrite HL. apply map_ext_in. intros j Hj. apply in_seq in Hj. unfold degs'.
      rewrite nth_upd by lia. simpl. destruct (Nat.eq_dec k j) as [->|Hne].
      - rewrite Nat.eqb_refl. lia.
      - rewrite (proj2 (Nat.eqb_neq j k)) by auto. auto. }
    destruct (OrderElevate_step s k) as (s' & E & Hw' & Hd' & HV'); auto.
    { fold degs'. eapply Z.le_lt_trans; [|exact HB]. apply Nat2Z.inj_le. rewrite <- Hdd.
      apply n_coeffs_mono. apply le_degs_nth; [now rewrite map_length, seq_length|].
      intros i Hi. rewrite nth_map_seq by auto. lia. }
    fold degs' in Hd'.
    destruct (IH s' Hw') as (r & E2 & Hw2 & Hd2 & HV2).
    { rewrite Hd', HL. auto. }
    { rewrite Hd', Hdd. exact HB. }
    exists r. simpl. rewrite E. cbn [bind]. split; auto. split; auto.
    split; [rewrite Hd2, Hd'; exact Hdd|].
    intros xs HX. rewrite HV2 by (rewrite Hd', HL; auto). apply HV'. auto.
Qed.

Lemma c60_elevation_order : forall (T V : Type) (o : SOps T) (ov : VOps T V) (F : SField T) (M : VMod T V)
  (s : spline V) (ks ks' : list nat),
  wf s -> Forall (fun k => k < length (degrees s)) ks ->
  (forall k, count_occ Nat.eq_dec ks k = count_occ Nat.eq_dec ks' k) ->
  (Z.of_nat (n_coeffs (map (fun k => nth k (degrees s) 0%nat + count_occ Nat.eq_dec ks k)%nat
     (seq 0 (length (degrees s))))) < 2 ^ 31)%Z ->
  exists r, elevate_many s ks = Ok r /\ elevate_many s ks' = Ok r /\ wf r /\
    degrees r = map (fun k => nth k (degrees s) 0 + count_occ Nat.eq_dec ks k) (seq 0 (length (degrees s))) /\
    forall xs : list T, length xs = length (degrees s) -> Evaluate r xs = Evaluate s xs.
Proof.
  intros T V o ov F M s ks ks' Hw HF HC HB.
  assert (EM : map (fun k => nth k (degrees s) 0 + count_occ Nat.eq_dec ks k) (seq 0 (length (degrees s))) =
    map (fun k => nth k (degrees s) 0 + count_occ Nat.eq_dec ks' k) (seq 0 (length (degrees s)))).
  { apply map_ext. intros. rewrite HC. auto. }
  destruct (elevate_many_ok ks s Hw HF HB) as (r & E & Hr & Hd & HV).
  destruct (elevate_many_ok ks' s Hw) as (r' & E' & Hr' & Hd' & HV').
  { apply Forall_forall. intros k Hk. rewrite Forall_forall in HF. apply HF.
    apply (count_occ_In Nat.eq_dec). rewrite HC. apply (count_occ_In Nat.eq_dec). auto. }
  { rewrite <- EM. auto. }
  assert (HL : length (degrees r) = length (degrees s)) by (rewrite Hd, map_length, seq_length; auto).
  exists r. split; auto. split; [|split; [auto|split; [auto|]]].
  - rewrite E'. f_equal. apply spline_unique; auto; [congruence|].
    intros xs HX. rewrite HV, HV' by congruence. auto.
  - intros xs HX. rewrite !Evaluate_value by (auto; congruence). rewrite HV by auto. auto.
Qed.
