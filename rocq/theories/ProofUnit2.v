(** Relations kept by every step [(1 - x) a + x b] are kept by evaluation,
    elevation and subdivision, whatever the arithmetic. *)
From Coq Require Import List Arith Lia Bool ZArith.
From Verif Require Import Prelude Scalar Spec SpecSpline Sums Coord ModelBasis ModelSpline ProofIndex ProofBasis ProofEval ProofElevate ProofSplit ProofCasteljau ProofRaw.
Import ListNotations.
Local Open Scope nat_scope.

Section Blend.
Context {T V W : Type} {o : SOps T} {ov : VOps T V} {ow : VOps T W}.
Variable Rel : V -> W -> Prop.
(** The step with the parameter [x] keeps the relation. *)
Definition keeps (x : T) : Prop := forall a b a' b', Rel a a' -> Rel b b' ->
  Rel (vadd (vscale (ssub s1 x) a) (vscale x b)) (vadd (vscale (ssub s1 x) a') (vscale x b')).
Definition rel_cps (c : list V) (c' : list W) : Prop :=
  length c = length c' /\ forall i, i < length c -> Rel (nth i c v0) (nth i c' v0).

Lemma dc_rel x f g r j : keeps x -> (forall i, j <= i <= j + r -> Rel (f i) (g i)) -> Rel (dc x f r j) (dc x g r j).
Proof.
  intros K. revert j; induction r; intros j H; cbn [dc]; [apply H; lia|].
  apply K; apply IHr; intros; apply H; lia.
Qed.
Lemma dct_rel degs : forall xs f g, Forall keeps xs -> (forall i, i < n_coeffs degs -> Rel (f i) (g i)) ->
  Rel (dct degs xs f) (dct degs xs g).
Proof.
  induction degs as [|p degs IH]; intros xs f g K H; [apply H; unfold n_coeffs; simpl; lia|].
  destruct xs as [|x xs]; [apply H; apply n_coeffs_pos|]. cbn [dct]. inversion K; subst. apply IH; auto.
  intros m Hm. apply dc_rel; auto. intros i Hi. apply H. rewrite n_coeffs_cons. nia.
Qed.
Lemma Evaluate_rel (s : spline V) (s' : spline W) xs : wf s -> wf s' -> degrees s = degrees s' -> length xs = length (degrees s) ->
  Forall keeps xs -> rel_cps (control_points s) (control_points s') ->
  exists v v', Evaluate s xs = Ok v /\ Evaluate s' xs = Ok v' /\ Rel v v'.
Proof.
  intros Hw Hw' Ed HL K (HC & H). rewrite !Evaluate_dct by (auto; congruence).
  do 2 eexists. split; [reflexivity|]. split; [reflexivity|]. rewrite <- Ed. apply dct_rel; auto.
  intros i Hi. apply H. destruct Hw as (_ & _ & _ & ->). auto.
Qed.

Lemma relev_rel p f g i : i <= p + 1 -> (forall i, 1 <= i <= p -> keeps (smul (sofnat i) (sdiv s1 (sofnat (p + 1))))) ->
  (forall j, j <= p -> Rel (f j) (g j)) -> Rel (relev p f i) (relev p g i).
Proof.
  intros Hi K H. unfold relev. destruct (Nat.eqb_spec i 0) as [|N]; [apply H; lia|].
  destruct (Nat.eqb_spec i (p + 1)) as [|N']; [apply H; lia|]. apply K; [lia|apply H; lia|apply H; lia].
Qed.
Lemma relev_points_rel off p cnt c c' : 0 < off -> length c = off * (p + 1) * cnt ->
  (forall i, 1 <= i <= p -> keeps (smul (sofnat i) (sdiv s1 (sofnat (p + 1))))) ->
  rel_cps c c' -> rel_cps (relev_points off p (off * (p + 2) * cnt) c) (relev_points off p (off * (p + 2) * cnt) c').
Proof.
  intros Ho Hc K (HL & H). unfold rel_cps, relev_points. rewrite !map_length, !seq_length. split; auto.
  intros q Hq. rewrite !nth_map_seq by auto.
  pose proof (Nat.mod_upper_bound (q / off) (p + 2)). pose proof (Nat.mod_upper_bound q off).
  assert (Hm : q / off / (p + 2) < cnt).
  { apply Nat.div_lt_upper_bound; [lia|]. apply Nat.div_lt_upper_bound; [lia|]. nia. }
  apply relev_rel; [lia|auto|]. intros j Hj. apply H. rewrite Hc. set (m := q / off / (p + 2)) in *.
  assert (off * ((p + 1) * S m) <= off * ((p + 1) * cnt)) by (apply Nat.mul_le_mono_l, Nat.mul_le_mono_l; lia). nia.
Qed.
Lemma OrderElevate_rel (s : spline V) (s' : spline W) k : wf s -> wf s' -> degrees s = degrees s' -> k < length (degrees s) ->
  seqb (sofnat (nth k (degrees s) 0 + 1)) s0 = false ->
  (forall i, 1 <= i <= nth k (degrees s) 0 -> keeps (smul (sofnat i) (sdiv s1 (sofnat (nth k (degrees s) 0 + 1))))) ->
  (Z.of_nat (n_coeffs (upd_list (degrees s) k (nth k (degrees s) 0 + 1)%nat)) < 2 ^ 31)%Z ->
  rel_cps (control_points s) (control_points s') ->
  exists r r', OrderElevate s k = Ok r /\ OrderElevate s' k = Ok r' /\ wf r /\ wf r' /\ degrees r = degrees r' /\
    degrees r = upd_list (degrees s) k (nth k (degrees s) 0 + 1) /\ rel_cps (control_points r) (control_points r').
Proof.
  intros Hw Hw' Ed Hk Hz K Hs HC. set (p := nth k (degrees s) 0) in *.
  rewrite (OrderElevate_raw s k Hw Hk Hz Hs). fold p.
  rewrite (OrderElevate_raw s' k Hw') by (rewrite <- ?Ed; auto). rewrite <- Ed. fold p.
  set (off := n_coeffs (firstn k (degrees s))). set (cnt := n_coeffs (skipn (S k) (degrees s))).
  assert (Ef : n_coeffs (upd_list (degrees s) k (p + 1)) = off * (p + 2) * cnt).
  { rewrite upd_split by auto. rewrite n_coeffs_app, n_coeffs_cons. fold off cnt. lia. }
  assert (Hnil : upd_list (degrees s) k (p + 1) <> []) by (intros E0; apply (f_equal (@length nat)) in E0; rewrite length_upd in E0; simpl in E0; lia).
  do 2 eexists. split; [reflexivity|]. split; [reflexivity|].
  split; [apply wf_mk; [exact Hnil|unfold relev_points; rewrite map_length, seq_length; reflexivity]|].
  split; [apply wf_mk; [exact Hnil|unfold relev_points; rewrite map_length, seq_length; reflexivity]|].
  split; [reflexivity|]. split; [reflexivity|]. cbn [mk control_points]. rewrite Ef. apply relev_points_rel; auto; [apply n_coeffs_pos|].
  destruct Hw as (_ & _ & _ & ->). rewrite (n_coeffs_split (degrees s) k), (skipn_cons_nth 0 (degrees s) k) by auto.
  rewrite n_coeffs_cons. fold p off cnt. lia.
Qed.

Lemma Split_rel (s : spline V) (s' : spline W) x k : wf s -> wf s' -> degrees s = degrees s' -> k < length (degrees s) ->
  slt s0 x -> slt x s1 -> keeps x -> rel_cps (control_points s) (control_points s') ->
  exists l r l' r', SplitAtPosition s x k = Ok [l; r] /\ SplitAtPosition s' x k = Ok [l'; r'] /\
    wf l /\ wf r /\ wf l' /\ wf r' /\ degrees l = degrees s /\ degrees r = degrees s /\ degrees l' = degrees s /\ degrees r' = degrees s /\
    rel_cps (control_points l) (control_points l') /\ rel_cps (control_points r) (control_points r').
Proof.
  intros Hw Hw' Ed Hk H0 H1 K (HL & HC).
  destruct (SplitAtPosition_raw s x k Hw Hk H0 H1) as (c1 & c2 & E & L1 & L2 & N).
  destruct (SplitAtPosition_raw s' x k Hw' ltac:(congruence) H0 H1) as (d1 & d2 & E' & L1' & L2' & N').
  rewrite <- Ed in N'.
  set (p := nth k (degrees s) 0) in *. set (off := n_coeffs (firstn k (degrees s))) in *.
  set (cnt := n_coeffs (skipn (S k) (degrees s))) in *.
  exists (with_cps s c1), (with_cps s c2), (with_cps s' d1), (with_cps s' d2). split; [auto|]. split; [auto|].
  assert (Hoff : 0 < off) by apply n_coeffs_pos.
  assert (Lc : length (control_points s) = off * (p + 1) * cnt).
  { pose proof Hw as (_ & _ & _ & ->). rewrite (n_coeffs_split (degrees s) k), (skipn_cons_nth 0 (degrees s) k) by auto.
    rewrite n_coeffs_cons. fold p off cnt. lia. }
  assert (Wc : length (control_points s) = n_coeffs (degrees s)) by apply Hw.
  do 4 (split; [apply with_cps_wf; auto; congruence|]). do 2 (split; [reflexivity|]). do 2 (split; [cbn; congruence|]).
  assert (Key : forall i, i < length (control_points s) -> Rel (nth i c1 v0) (nth i d1 v0) /\ Rel (nth i c2 v0) (nth i d2 v0)).
  { intros i Hi. assert (HX : exists a j m, a < off /\ j <= p /\ m < cnt /\ i = a + off * (j + (p + 1) * m)).
    { exists (i mod off), (i / off mod (p + 1)), (i / off / (p + 1)).
      split; [apply Nat.mod_upper_bound; lia|]. split; [pose proof (Nat.mod_upper_bound (i / off) (p + 1)); lia|]. split.
      - apply Nat.div_lt_upper_bound; [lia|]. apply Nat.div_lt_upper_bound; [lia|]. rewrite Lc in Hi. nia.
      - rewrite (Nat.div_mod i off) at 1 by lia. rewrite (Nat.div_mod (i / off) (p + 1)) at 1 by lia. lia. }
    destruct HX as (a & j & m & Ha & Hj & Hm & ->).
    destruct (N a j m Ha Hj Hm) as (-> & ->). destruct (N' a j m Ha Hj Hm) as (-> & ->).
    assert (Bd : forall j0, j0 <= p -> Rel (nth (a + off * (j0 + (p + 1) * m)) (control_points s) v0) (nth (a + off * (j0 + (p + 1) * m)) (control_points s') v0)).
    { intros j0 Hj0. apply HC. rewrite Lc.
      assert (off * ((p + 1) * S m) <= off * ((p + 1) * cnt)) by (apply Nat.mul_le_mono_l, Nat.mul_le_mono_l; lia). nia. }
    split; apply dc_rel; auto; intros; apply Bd; lia. }
  cbn [with_cps control_points]. split; (split; [congruence|]); intros i Hi; apply Key; lia.
Qed.
End Blend.
