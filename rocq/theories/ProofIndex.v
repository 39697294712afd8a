(** Index arithmetic: offsets, index conversions, control-point access. *)
From Coq Require Import Arith Lia List ZArith NArith Bool.
From Verif Require Import Prelude Scalar Spec SpecSpline Sums ModelBasis ModelSpline.
Import ListNotations.

Lemma n_coeffs_cons p l : n_coeffs (p :: l) = S p * n_coeffs l.
Proof. reflexivity. Qed.
Lemma n_coeffs_app l m : n_coeffs (l ++ m) = n_coeffs l * n_coeffs m.
Proof.
  induction l; simpl app; [unfold n_coeffs; simpl; lia|].
  rewrite !n_coeffs_cons, IHl. lia.
Qed.
Lemma n_coeffs_pos l : 0 < n_coeffs l.
Proof. induction l; [unfold n_coeffs; simpl; lia|]. rewrite n_coeffs_cons. nia. Qed.

Lemma firstn_S_nth {A} (d : A) l k :
  k < length l -> firstn (S k) l = firstn k l ++ [nth k l d].
Proof.
  revert l; induction k; destruct l; simpl; intros; try lia; auto.
  f_equal. apply IHk. lia.
Qed.

Lemma split_nth {A} (d : A) l k :
  k < length l -> l = firstn k l ++ nth k l d :: skipn (S k) l.
Proof.
  revert l; induction k; destruct l; simpl; intros; try lia; auto.
  f_equal. apply IHk. lia.
Qed.

Lemma length_offsets degs : length (offsets degs) = length degs.
Proof. unfold offsets. now rewrite map_length, seq_length. Qed.

Lemma nth_offsets degs k d :
  k < length degs -> nth k (offsets degs) d = n_coeffs (firstn k degs).
Proof.
  intros. unfold offsets.
  rewrite (nth_indep _ d (n_coeffs (firstn 0 degs))) by (now rewrite map_length, seq_length).
  rewrite (map_nth (fun i => n_coeffs (firstn i degs)) (seq 0 (length degs)) 0).
  rewrite seq_nth; auto.
Qed.

Lemma UpdateIndexOffsets_ok degs :
  degs <> [] -> UpdateIndexOffsets_ degs = Ok (offsets degs).
Proof.
  intros Hd. unfold UpdateIndexOffsets_.
  assert (L : 0 < length degs) by (destruct degs; simpl; [congruence|lia]).
  rewrite set_ok by (rewrite repeat_length; auto). rewrite bind_Ok.
  destruct (for_up_inv
    (fun i offs => length offs = length degs /\
       forall j, j < i -> j < length degs -> nth j offs 0 = n_coeffs (firstn j degs))
    (fun i offs => do a <- get offs (i - 1); do p <- get degs (i - 1); set offs i (a * (p + 1)))
    (length degs - 1) 1 (upd_list (repeat 0 (length degs)) 0 1)) as (offs & E & HL & HN).
  - rewrite length_upd, repeat_length. split; auto. intros j Hj Hj'.
    replace j with 0 by lia. rewrite nth_upd_same by (now rewrite repeat_length). reflexivity.
  - intros i offs Hi (HL & HN).
    rewrite (get_ok 0) by lia. rewrite (get_ok 0 degs) by lia. simpl.
    rewrite set_ok by lia. eexists; split; [reflexivity|].
    rewrite length_upd. split; auto. intros j Hj Hj'.
    rewrite nth_upd by lia. destruct (Nat.eqb_spec j i) as [->|]; [|apply HN; lia].
    rewrite HN by lia.
    assert (Ei : firstn i degs = firstn (i - 1) degs ++ [nth (i - 1) degs 0]).
    { replace i with (S (i - 1)) at 1 by lia. apply firstn_S_nth. lia. }
    rewrite Ei, n_coeffs_app, n_coeffs_cons. unfold n_coeffs at 3. simpl prod. lia.
  - rewrite E. f_equal. apply (list_ext 0).
    + now rewrite length_offsets.
    + intros i Hi. rewrite nth_offsets by lia. apply HN; lia.
Qed.

Lemma UpdateIndexOffsets_nil : UpdateIndexOffsets_ [] = UB.
Proof. reflexivity. Qed.

Lemma count_points_ok degs : count_points degs = Ok (n_coeffs degs).
Proof.
  unfold count_points.
  destruct (for_up_inv (fun i n => n = n_coeffs (firstn i degs))
    (fun i n => do p <- get degs i; Ok (n * (p + 1))) (length degs) 0 1)
    as (n & E & H).
  - reflexivity.
  - intros i n Hi ->. rewrite (get_ok 0) by lia. cbn [bind]. eexists; split; [reflexivity|].
    rewrite (firstn_S_nth 0) by lia. rewrite n_coeffs_app, n_coeffs_cons. unfold n_coeffs at 3. simpl prod. lia.
  - rewrite E, H. simpl. now rewrite firstn_all.
Qed.

Lemma wf_dim {V} (s : spline V) : wf s -> 0 < length (degrees s).
Proof. intros (H & _). destruct (degrees s); simpl; [congruence|lia]. Qed.

(** The well-formed spline with given degrees and points. *)
Definition mk {V} (degs : list nat) (c : list V) : spline V :=
  mkSpline degs (n_coeffs degs) (offsets degs) c.

Lemma wf_mk {V} degs (c : list V) :
  degs <> [] -> length c = n_coeffs degs -> wf (mk degs c).
Proof. repeat split; auto. Qed.

Lemma wf_eq_mk {V} (s : spline V) : wf s -> s = mk (degrees s) (control_points s).
Proof. destruct s; unfold wf, mk; simpl. intros (H1 & -> & -> & _). reflexivity. Qed.

Lemma with_cps_wf {V} (s : spline V) c :
  wf s -> length c = n_coeffs (degrees s) -> wf (with_cps s c).
Proof. unfold wf, with_cps; simpl. tauto. Qed.

Lemma with_cps_mk {V} degs (c c' : list V) : with_cps (mk degs c) c' = mk degs c'.
Proof. reflexivity. Qed.

(** ** Index conversions *)
Lemma position_lt degs idx :
  valid_index degs idx -> position degs idx < n_coeffs degs.
Proof.
  induction 1; simpl; [unfold n_coeffs; simpl; lia|].
  rewrite n_coeffs_cons. nia.
Qed.

Lemma position_app l m i j :
  length i = length l ->
  position (l ++ m) (i ++ j) = position l i + n_coeffs l * position m j.
Proof.
  revert i; induction l; destruct i; simpl; intros H; try discriminate.
  - unfold n_coeffs; simpl; lia.
  - rewrite n_coeffs_cons, IHl by lia. lia.
Qed.

(** Multi-index of a position. *)
Fixpoint index_of (degs : list nat) (i : nat) : list nat :=
  match degs with
  | [] => []
  | p :: degs' => i mod S p :: index_of degs' (i / S p)
  end.

Lemma length_index_of degs i : length (index_of degs i) = length degs.
Proof. revert i; induction degs; simpl; intros; auto. Qed.

Lemma index_of_valid degs i : valid_index degs (index_of degs i).
Proof.
  revert i; induction degs; simpl; intros; constructor; [|apply IHdegs].
  pose proof (Nat.mod_upper_bound i (S a)). lia.
Qed.

Lemma position_index_of degs i : i < n_coeffs degs -> position degs (index_of degs i) = i.
Proof.
  revert i; induction degs as [|p degs IH]; intros i Hi.
  - unfold n_coeffs in Hi; simpl in *; lia.
  - rewrite n_coeffs_cons in Hi. cbn [index_of position]. rewrite IH.
    + rewrite (Nat.div_mod i (S p)) at 3 by lia. lia.
    + apply Nat.div_lt_upper_bound; lia.
Qed.

Lemma index_of_position degs idx :
  valid_index degs idx -> index_of degs (position degs idx) = idx.
Proof.
  unfold valid_index. induction 1 as [|p i degs idx Hi Hv IH]; [reflexivity|].
  cbn [position index_of].
  replace (i + S p * position degs idx) with (i + position degs idx * S p) by lia.
  rewrite Nat.mod_add, Nat.div_add, Nat.mod_small, Nat.div_small by lia.
  simpl. now rewrite IH.
Qed.

Lemma nth_index_of degs i k d :
  k < length degs ->
  nth k (index_of degs i) d = (i / n_coeffs (firstn k degs)) mod S (nth k degs 0).
Proof.
  revert i k; induction degs as [|p degs IH]; intros i k Hk; simpl in Hk; [lia|].
  destruct k.
  - cbn [index_of nth firstn]. unfold n_coeffs; simpl prod. now rewrite Nat.div_1_r.
  - cbn [index_of nth firstn]. rewrite IH by lia.
    rewrite n_coeffs_cons, Nat.div_div; auto.
    pose proof (n_coeffs_pos (firstn k degs)). lia.
Qed.

Lemma LocalToGlobal_ok {V} (s : spline V) i :
  wf s -> LocalToGlobalIndex s i = Ok (index_of (degrees s) i).
Proof.
  intros (Hd & Hn & Ho & Hc). unfold LocalToGlobalIndex.
  destruct (for_up_inv
    (fun k l => length l = length (degrees s) /\
       forall j, j < k -> nth j l 0 = nth j (index_of (degrees s) i) 0)
    (fun i0 l => do off <- get (index_offsets s) i0;
       do _ <- (if off =? 0 then UB else Ok tt); do p <- get (degrees s) i0;
       set l i0 ((i / off) mod (p + 1)))
    (length (degrees s)) 0 (repeat 0 (length (degrees s)))) as (l & E & HL & HN).
  - rewrite repeat_length. split; auto. intros; lia.
  - intros k l Hk (HL & HN). rewrite Ho.
    rewrite (get_ok 0) by (rewrite length_offsets; lia). rewrite (get_ok 0 (degrees s)) by lia.
    rewrite !bind_Ok, nth_offsets by lia.
    destruct (Nat.eqb_spec (n_coeffs (firstn k (degrees s))) 0) as [Z|_].
    { pose proof (n_coeffs_pos (firstn k (degrees s))). lia. }
    rewrite !bind_Ok, set_ok by lia. eexists; split; [reflexivity|]. rewrite length_upd. split; auto.
    intros j Hj. rewrite nth_upd by lia.
    destruct (Nat.eqb_spec j k) as [->|]; [|apply HN; lia].
    rewrite nth_index_of by lia. f_equal. lia.
  - rewrite E. f_equal. apply (list_ext 0).
    + now rewrite length_index_of.
    + intros j Hj. apply HN. lia.
Qed.

Lemma position_firstn_S degs idx k :
  length idx = length degs -> k < length degs ->
  position (firstn (S k) degs) (firstn (S k) idx) =
  position (firstn k degs) (firstn k idx) + n_coeffs (firstn k degs) * nth k idx 0.
Proof.
  intros HL Hk. rewrite !(firstn_S_nth 0) by lia.
  rewrite position_app by (rewrite !firstn_length; lia). simpl. lia.
Qed.

(** No bound on the entries is needed: the source adds multiples of the offsets. *)
Lemma GlobalToLocal_ok {V} (s : spline V) idx :
  wf s -> length idx = length (degrees s) ->
  GlobalToLocalIndex s idx = Ok (position (degrees s) idx).
Proof.
  intros Hwf HL. pose proof (wf_dim s Hwf) as Hdim. destruct Hwf as (Hd & Hn & Ho & Hc).
  unfold GlobalToLocalIndex. rewrite (get_ok 0) by lia. rewrite bind_Ok.
  destruct (for_up_inv
    (fun k c => c = position (firstn k (degrees s)) (firstn k idx))
    (fun i c => do off <- get (index_offsets s) i; do l <- get idx i; Ok (c + off * l))
    (length (degrees s) - 1) 1 (nth 0 idx 0)) as (c & E & Hc').
  - rewrite position_firstn_S by lia. simpl. unfold n_coeffs; simpl. lia.
  - intros k c Hk ->. rewrite Ho.
    rewrite (get_ok 0) by (rewrite length_offsets; lia).
    rewrite (get_ok 0 idx) by lia. cbn [bind].
    eexists; split; [reflexivity|]. rewrite position_firstn_S by lia.
    rewrite nth_offsets by lia. reflexivity.
  - rewrite E, Hc'. f_equal. rewrite !firstn_all2 by lia. reflexivity.
Qed.

Lemma valid_index_length degs idx : valid_index degs idx -> length idx = length degs.
Proof. induction 1; simpl; auto. Qed.

Lemma ControlPoint_ok {V} (d : V) (s : spline V) idx :
  wf s -> valid_index (degrees s) idx ->
  ControlPoint s idx = Ok (nth (position (degrees s) idx) (control_points s) d).
Proof.
  intros Hw Hv. unfold ControlPoint.
  rewrite GlobalToLocal_ok by (auto using valid_index_length). simpl.
  apply get_ok. destruct Hw as (_ & _ & _ & ->). apply position_lt; auto.
Qed.

Lemma SetControlPoint_ok {V} (s : spline V) idx v :
  wf s -> valid_index (degrees s) idx ->
  SetControlPoint s idx v =
  Ok (with_cps s (upd_list (control_points s) (position (degrees s) idx) v)).
Proof.
  intros Hw Hv. unfold SetControlPoint.
  rewrite GlobalToLocal_ok by (auto using valid_index_length). simpl.
  rewrite set_ok; auto. destruct Hw as (_ & _ & _ & ->). apply position_lt; auto.
Qed.

Lemma VariadicPosition_ok {V} (s : spline V) idx :
  wf s -> valid_index (degrees s) idx ->
  (Z.of_nat (n_coeffs (degrees s)) <= 2 ^ 32)%Z ->
  VariadicPosition s idx = Ok (position (degrees s) idx).
Proof.
  intros Hw Hv Hb. pose proof (valid_index_length _ _ Hv) as HL.
  pose proof (position_lt _ _ Hv) as Hp.
  destruct Hw as (Hd & Hn & Ho & Hc). unfold VariadicPosition.
  destruct (for_up_inv
    (fun k c => c = Z.of_nat (position (firstn k (degrees s)) (firstn k idx)))
    (fun i c => do off <- get (index_offsets s) i; do l <- get idx i;
        Ok (u32 (c + Z.of_nat off * Z.of_nat l))%Z)
    (length idx) 0 0%Z) as (c & E & Hc').
  - reflexivity.
  - intros k c Hk ->. rewrite Ho.
    rewrite (get_ok 0) by (rewrite length_offsets; lia).
    rewrite (get_ok 0 idx) by lia. cbn [bind]. eexists; split; [reflexivity|].
    rewrite nth_offsets by lia. rewrite position_firstn_S by lia.
    rewrite u32_small; [lia|].
    assert (Hle : position (firstn k (degrees s)) (firstn k idx) +
      n_coeffs (firstn k (degrees s)) * nth k idx 0 <= position (degrees s) idx).
    { rewrite <- position_firstn_S by lia.
      rewrite <- (firstn_skipn (S k) (degrees s)) at 2.
      rewrite <- (firstn_skipn (S k) idx) at 2.
      rewrite position_app by (rewrite !firstn_length; lia). lia. }
    lia.
  - rewrite E. simpl. rewrite Hc', Nat2Z.id. rewrite !firstn_all2 by lia. reflexivity.
Qed.

(** Constructors *)
Section Ctor.
Context {T V : Type} {o : SOps T} {ov : VOps T V}.

Lemma Spline_deg_ok degs :
  degs <> [] -> Spline_deg degs = Ok (mk degs (repeat (v0 : V) (n_coeffs degs))).
Proof.
  intros. unfold Spline_deg. rewrite count_points_ok, UpdateIndexOffsets_ok by auto. reflexivity.
Qed.

Lemma Spline_deg_points_ok degs (pts : list V) :
  degs <> [] -> length pts = n_coeffs degs ->
  Spline_deg_points degs pts = Ok (mk degs pts).
Proof.
  intros H HL. unfold Spline_deg_points. rewrite count_points_ok, UpdateIndexOffsets_ok by auto.
  simpl. rewrite HL, Nat.eqb_refl. reflexivity.
Qed.

Lemma Spline_deg_points_inv degs (pts : list V) s :
  Spline_deg_points degs pts = Ok s ->
  degs <> [] /\ length pts = n_coeffs degs /\ s = mk degs pts.
Proof.
  unfold Spline_deg_points. rewrite count_points_ok. simpl.
  destruct degs as [|p degs]; [discriminate|].
  rewrite UpdateIndexOffsets_ok by congruence. simpl.
  destruct (Nat.eqb_spec (n_coeffs (p :: degs)) (length pts)); simpl; [|discriminate].
  injection 1 as <-. repeat split; auto; congruence.
Qed.

Lemma UpdateDegrees_ok (s : spline V) degs :
  degs <> [] -> UpdateDegrees s degs = Ok (mk degs (resize v0 (control_points s) (n_coeffs degs))).
Proof.
  intros. unfold UpdateDegrees. rewrite count_points_ok, UpdateIndexOffsets_ok by auto. reflexivity.
Qed.
End Ctor.
