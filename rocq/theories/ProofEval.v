(** Algebra of the Bezier map and correctness of Evaluate / ForwardEvaluate. *)
From Coq Require Import Arith Lia List ZArith NArith Bool Ring Field.
From Verif Require Import Prelude Scalar Spec SpecSpline Sums ModelBasis ModelSpline ProofIndex ProofBasis.
Import ListNotations.

Section Bez.
Context {T V : Type} {o : SOps T} {ov : VOps T V} {F : SField T} {M : VMod T V}.
Add Field Tfield : (@sf_th T o F).
Add Ring Ering : (@ext_ring T V o ov F M).
Ltac vring := to_ext; ring.
Local Notation bez := (bezier (T := T) (V := V)).

Lemma bezier_cons p degs x xs (f : nat -> V) :
  bez (p :: degs) (x :: xs) f =
  vsum (S p) (fun j => vscale (bernstein p j x) (bez degs xs (fun g => f (j + S p * g)))).
Proof. reflexivity. Qed.

Lemma bezier_ext degs xs (f g : nat -> V) :
  (forall i, i < n_coeffs degs -> f i = g i) -> bez degs xs f = bez degs xs g.
Proof.
  revert xs f g; induction degs as [|p degs IH]; intros xs f g H.
  - simpl. apply H. unfold n_coeffs; simpl; lia.
  - destruct xs as [|x xs].
    + simpl. apply H. apply n_coeffs_pos.
    + rewrite !bezier_cons. apply vsum_ext. intros j Hj. f_equal. apply IH.
      intros i Hi. apply H. rewrite n_coeffs_cons. nia.
Qed.

Lemma bezier_add degs xs (f g : nat -> V) :
  bez degs xs (fun i => vadd (f i) (g i)) = vadd (bez degs xs f) (bez degs xs g).
Proof.
  revert xs f g; induction degs as [|p degs IH]; intros xs f g; [reflexivity|].
  destruct xs as [|x xs]; [reflexivity|].
  rewrite !bezier_cons. rewrite <- vsum_add. apply vsum_ext. intros j Hj.
  rewrite IH. vring.
Qed.

Lemma bezier_scale degs xs (c : T) (f : nat -> V) :
  bez degs xs (fun i => vscale c (f i)) = vscale c (bez degs xs f).
Proof.
  revert xs f; induction degs as [|p degs IH]; intros xs f; [reflexivity|].
  destruct xs as [|x xs]; [reflexivity|].
  rewrite !bezier_cons. rewrite <- vsum_scale. apply vsum_ext. intros j Hj.
  rewrite IH. vring.
Qed.

Lemma bezier_opp degs xs (f : nat -> V) :
  bez degs xs (fun i => vopp (f i)) = vopp (bez degs xs f).
Proof.
  rewrite (bezier_ext degs xs _ (fun i => vscale (sopp s1) (f i))).
  - rewrite bezier_scale. symmetry. apply vopp_scale.
  - intros. apply vopp_scale.
Qed.

Lemma bezier_sub degs xs (f g : nat -> V) :
  bez degs xs (fun i => vsub (f i) (g i)) = vsub (bez degs xs f) (bez degs xs g).
Proof.
  rewrite (bezier_ext degs xs _ (fun i => vadd (f i) (vopp (g i)))).
  - rewrite bezier_add, bezier_opp. symmetry. apply vm_sub.
  - intros. apply vm_sub.
Qed.

Lemma bezier_zero degs xs : bez degs xs (fun _ => v0) = v0.
Proof.
  rewrite (bezier_ext degs xs _ (fun i => vscale s0 v0)).
  - rewrite bezier_scale. apply vscale_0_l.
  - intros. now rewrite vscale_0_l.
Qed.

Lemma bezier_vsum degs xs n (f : nat -> nat -> V) :
  bez degs xs (fun i => vsum n (fun k => f k i)) = vsum n (fun k => bez degs xs (f k)).
Proof.
  induction n; simpl.
  - apply bezier_zero.
  - rewrite bezier_add, IHn. reflexivity.
Qed.

Lemma bezier_const degs xs (v : V) :
  length xs = length degs -> bez degs xs (fun _ => v) = v.
Proof.
  revert xs; induction degs as [|p degs IH]; intros [|x xs] H; try discriminate; auto.
  rewrite bezier_cons.
  rewrite (vsum_ext _ _ (fun j => vscale (bernstein p j x) v)).
  - rewrite vsum_scale_l, bernstein_sum. apply vm_1.
  - intros. f_equal. apply IH. simpl in H. lia.
Qed.

Lemma bezier_app pre rest xp xr (f : nat -> V) :
  length xp = length pre ->
  bez (pre ++ rest) (xp ++ xr) f =
  bez pre xp (fun a => bez rest xr (fun m => f (a + n_coeffs pre * m))).
Proof.
  revert xp f; induction pre as [|p pre IH]; intros [|x xp] f H; try discriminate.
  - simpl. apply bezier_ext. intros. f_equal. unfold n_coeffs; simpl. lia.
  - simpl app. rewrite !bezier_cons. apply vsum_ext. intros j Hj. f_equal.
    rewrite IH by (simpl in H; lia).
    apply bezier_ext. intros a Ha. apply bezier_ext. intros m Hm. f_equal.
    rewrite n_coeffs_cons. lia.
Qed.

(** One direction singled out. *)
Lemma bezier_mid pre p post xp x xq (f : nat -> V) :
  length xp = length pre ->
  bez (pre ++ p :: post) (xp ++ x :: xq) f =
  bez pre xp (fun a =>
    vsum (S p) (fun j => vscale (bernstein p j x)
      (bez post xq (fun m => f (a + n_coeffs pre * (j + S p * m)))))).
Proof. intros. rewrite bezier_app by auto. reflexivity. Qed.

(** An operation that acts on the coefficients of one direction only and whose
    effect on the basis is known. *)
Lemma bezier_dirop pre p p' post xp x x' xq (f g : nat -> V) (A : nat -> nat -> T) :
  length xp = length pre ->
  (forall a i m, a < n_coeffs pre -> i <= p' -> m < n_coeffs post ->
     g (a + n_coeffs pre * (i + S p' * m)) =
     vsum (S p) (fun j => vscale (A i j) (f (a + n_coeffs pre * (j + S p * m))))) ->
  (forall j, j <= p ->
     ssum (S p') (fun i => smul (bernstein p' i x') (A i j)) = bernstein p j x) ->
  bez (pre ++ p' :: post) (xp ++ x' :: xq) g = bez (pre ++ p :: post) (xp ++ x :: xq) f.
Proof.
  intros HL Hg HA. rewrite !bezier_mid by auto. apply bezier_ext. intros a Ha.
  rewrite (vsum_ext (S p') _ (fun i => vsum (S p) (fun j =>
     vscale (smul (bernstein p' i x') (A i j))
       (bez post xq (fun m => f (a + n_coeffs pre * (j + S p * m))))))).
  2:{ intros i Hi.
      rewrite (bezier_ext post xq _ (fun m => vsum (S p) (fun j =>
          vscale (A i j) (f (a + n_coeffs pre * (j + S p * m)))))).
      2:{ intros m Hm. apply Hg; auto. lia. }
      rewrite bezier_vsum, <- vsum_scale. apply vsum_ext. intros j Hj.
      rewrite bezier_scale. symmetry. apply vm_mul. }
  rewrite vsum_swap. apply vsum_ext. intros j Hj.
  rewrite vsum_scale_l. f_equal. apply HA. lia.
Qed.

(** Flat form: one sum over all control points. *)
Fixpoint basis_at (degs : list nat) (xs : list T) (i : nat) : T :=
  match degs, xs with
  | p :: degs', x :: xs' =>
      smul (bernstein p (i mod S p) x) (basis_at degs' xs' (i / S p))
  | _, _ => s1
  end.

Lemma bezier_flat degs xs (f : nat -> V) :
  length xs = length degs ->
  bez degs xs f = vsum (n_coeffs degs) (fun i => vscale (basis_at degs xs i) (f i)).
Proof.
  revert xs f; induction degs as [|p degs IH]; intros [|x xs] f H; try discriminate.
  - unfold n_coeffs; cbn [map prod fold_right vsum bezier basis_at]. now rewrite vm_1, vm_0.
  - rewrite bezier_cons, n_coeffs_cons, vsum_mul, vsum_swap.
    apply vsum_ext. intros j Hj. rewrite IH by (simpl in H; lia).
    rewrite <- vsum_scale. apply vsum_ext. intros g Hg. cbn [basis_at].
    replace (j + S p * g) with (j + g * S p) by lia.
    rewrite Nat.mod_add, Nat.div_add, Nat.mod_small, Nat.div_small by lia.
    rewrite Nat.add_0_l. symmetry. apply vm_mul.
Qed.

(** ** de Casteljau *)
Definition dcas (x : T) (f : nat -> V) (r j : nat) : V :=
  vsum (S r) (fun i => vscale (bernstein r i x) (f (j + i))).

Lemma dcas_0 x f j : dcas x f 0 j = f j.
Proof.
  unfold dcas. cbn [vsum]. rewrite bernstein_0_0, Nat.add_0_r. rewrite vm_0. apply vm_1.
Qed.

Lemma dcas_S x f r j :
  dcas x f (S r) j = vadd (vscale (ssub s1 x) (dcas x f r j)) (vscale x (dcas x f r (S j))).
Proof.
  unfold dcas. rewrite (vsum_first (S r)).
  rewrite (vsum_ext (S r) (fun i => vscale (bernstein (S r) (S i) x) _)
    (fun i => vadd (vscale (ssub s1 x) (vscale (bernstein r (S i) x) (f (j + S i))))
                   (vscale x (vscale (bernstein r i x) (f (S j + i)))))).
  2:{ intros i Hi. rewrite bernstein_rec_S.
      replace (S j + i) with (j + S i) by lia. vring. }
  rewrite vsum_add, !vsum_scale, bernstein_rec_0.
  change (vsum (S r) (fun i => vscale (bernstein r (S i) x) (f (j + S i)))) with
    (vadd (vsum r (fun i => vscale (bernstein r (S i) x) (f (j + S i))))
       (vscale (bernstein r (S r) x) (f (j + S r)))).
  rewrite (bernstein_gt r (S r)) by lia.
  rewrite (vsum_first r (fun i => vscale (bernstein r i x) (f (j + i)))). vring.
Qed.

(** In-place de Casteljau on a strided slice. *)
Lemma decasteljau_loop (c : list V) (x : T) p st ofs :
  0 < st -> ofs + p * st < length c ->
  exists c',
    for_up 0 (p + 1) (fun i cps =>
        for_up 0 (p - i) (fun j cps =>
          do a <- get cps (j * st + ofs);
          do b <- get cps ((j + 1) * st + ofs);
          set cps (j * st + ofs)
            (vadd (vscale (ssub s1 x) a) (vscale x b))) cps) c = Ok c' /\
    length c' = length c /\
    nth ofs c' v0 = dcas x (fun j => nth (j * st + ofs) c v0) p 0 /\
    (forall k, k < ofs \/ ofs + p * st < k -> nth k c' v0 = nth k c v0).
Proof.
  intros Hst Hlen. set (f := fun j => nth (j * st + ofs) c v0).
  edestruct (for_up_inv (fun i (c' : list V) => length c' = length c /\
     (forall j, j <= p -> nth (j * st + ofs) c' v0 = dcas x f (min i (p - j)) j) /\
     (forall k, k < ofs \/ ofs + p * st < k -> nth k c' v0 = nth k c v0)))
    as (c' & E & HL & HN & HO).
  3:{ exists c'. split; [exact E|]. split; [auto|]. split; [|auto].
      specialize (HN 0 ltac:(lia)). simpl in HN. rewrite HN.
      f_equal. lia. }
  - split; [auto|]. split; [|auto]. intros j Hj. simpl. rewrite dcas_0. reflexivity.
  - intros i c1 Hi (HL & HN & HO).
    edestruct (for_up_inv (fun j0 (c' : list V) => length c' = length c /\
       (forall j, j <= p -> nth (j * st + ofs) c' v0 =
          dcas x f (min (if j <? j0 then S i else i) (p - j)) j) /\
       (forall k, k < ofs \/ ofs + p * st < k -> nth k c' v0 = nth k c v0)))
      as (c' & E & HL' & HN' & HO').
    3:{ exists c'. split; [exact E|]. split; [auto|]. split; [|auto].
        intros j Hj. rewrite HN' by auto.
        destruct (Nat.ltb_spec j (0 + (p - i))); auto.
        f_equal. lia. }
    + split; [auto|]. split; [|auto]. intros j Hj. rewrite HN by auto. reflexivity.
    + intros j0 c2 Hj0 (HL2 & HN2 & HO2).
      assert (j0 * st + ofs < length c2) by (rewrite HL2; nia).
      assert ((j0 + 1) * st + ofs < length c2) by (rewrite HL2; nia).
      rewrite (get_ok v0) by auto. cbn [bind]. rewrite (get_ok v0) by auto. cbn [bind].
      rewrite set_ok by auto. eexists; split; [reflexivity|]. rewrite length_upd.
      split; [auto|]. split.
      * intros j Hj. rewrite nth_upd by auto.
        destruct (Nat.eqb_spec (j * st + ofs) (j0 * st + ofs)) as [Ej|Ej].
        -- assert (j = j0) by nia. subst j.
           rewrite !HN2 by lia. rewrite Nat.ltb_irrefl.
           rewrite (proj2 (Nat.ltb_ge (j0 + 1) j0)) by lia.
           rewrite (proj2 (Nat.ltb_lt j0 (S j0))) by lia.
           replace (min (S i) (p - j0)) with (S i) by lia.
           replace (min i (p - j0)) with i by lia.
           replace (min i (p - (j0 + 1))) with i by lia.
           rewrite dcas_S. rewrite Nat.add_1_r. reflexivity.
        -- rewrite HN2 by auto. f_equal. f_equal.
           destruct (Nat.ltb_spec j j0), (Nat.ltb_spec j (S j0)); auto; try lia.
           exfalso. apply Ej. f_equal. f_equal. lia.
      * intros k Hk. rewrite nth_upd_other by nia. auto.
Qed.

Lemma skipn_cons_nth {A} (d : A) l k :
  k < length l -> skipn k l = nth k l d :: skipn (S k) l.
Proof.
  revert l; induction k; destruct l; simpl; intros; try lia; auto. apply IHk. lia.
Qed.

Lemma n_coeffs_split degs k :
  n_coeffs degs = n_coeffs (firstn k degs) * n_coeffs (skipn k degs).
Proof. rewrite <- n_coeffs_app, firstn_skipn. reflexivity. Qed.

Theorem Evaluate_ok (s : spline V) (xs : list T) :
  wf s -> length xs = length (degrees s) ->
  Evaluate s xs = Ok (bez (degrees s) xs (fun i => nth i (control_points s) v0)).
Proof.
  intros Hw HX. pose proof Hw as (Hd & Hn & Ho & Hc). unfold Evaluate.
  set (degs := degrees s) in *. set (P := control_points s) in *.
  edestruct (for_up_inv (fun k '((c, cnt) : list V * nat) =>
      cnt = n_coeffs (skipn k degs) /\ length c = n_coeffs degs /\
      forall m, m < cnt -> nth (n_coeffs (firstn k degs) * m) c v0 =
        bez (firstn k degs) (firstn k xs) (fun a => nth (a + n_coeffs (firstn k degs) * m) P v0)))
    as ([c cnt] & E & Hcnt & HL & HN).
  3:{ rewrite E. cbn [bind]. rewrite Nat.add_0_l in *.
      rewrite (get_ok v0) by (rewrite HL; apply n_coeffs_pos). f_equal.
      specialize (HN 0). rewrite Nat.mul_0_r in HN. rewrite HN.
      - rewrite !firstn_all2 by lia. apply bezier_ext. intros. f_equal. lia.
      - rewrite Hcnt. apply n_coeffs_pos. }
  - split; [exact Hn|]. split; [exact Hc|]. intros m Hm. simpl. f_equal.
  - intros k [c cnt] Hk (-> & HL & HN).
    assert (Hkl : k < length degs) by lia.
    rewrite (get_ok s0 xs) by lia. cbn [bind].
    rewrite (get_ok 0 degs) by lia. cbn [bind].
    rewrite Ho. rewrite (get_ok 0) by (rewrite length_offsets; lia). cbn [bind].
    rewrite nth_offsets by lia.
    set (p := nth k degs 0). set (x := nth k xs s0). set (off := n_coeffs (firstn k degs)) in *.
    assert (Hoff : 0 < off) by apply n_coeffs_pos.
    assert (Esk : n_coeffs (skipn k degs) = (p + 1) * n_coeffs (skipn (S k) degs)).
    { rewrite (skipn_cons_nth 0) by auto. rewrite n_coeffs_cons. fold p. lia. }
    assert (Efi : n_coeffs (firstn (S k) degs) = off * (p + 1)).
    { rewrite (firstn_S_nth 0) by auto. rewrite n_coeffs_app, n_coeffs_cons.
      unfold n_coeffs at 2. simpl prod. fold p. unfold off. lia. }
    rewrite Esk. rewrite (Nat.mul_comm (p + 1)), Nat.div_mul by lia.
    set (cnt := n_coeffs (skipn (S k) degs)).
    assert (Etot : n_coeffs degs = off * (p + 1) * cnt).
    { rewrite (n_coeffs_split degs k), Esk. fold off cnt. lia. }
    edestruct (for_up_inv (fun m (c' : list V) => length c' = n_coeffs degs /\
       (forall m', m' < m -> nth (off * (p + 1) * m') c' v0 =
          dcas x (fun j => nth (j * off + off * (p + 1) * m') c v0) p 0) /\
       (forall i, off * (p + 1) * m <= i -> nth i c' v0 = nth i c v0)))
      as (c' & E & HL' & HN' & HO').
    3:{ rewrite E. cbn [bind]. eexists; split; [reflexivity|].
        split; [reflexivity|]. split; [auto|]. intros m Hm. rewrite Efi.
        rewrite HN' by auto. unfold dcas.
        rewrite (firstn_S_nth 0 degs) by auto. rewrite (firstn_S_nth s0 xs) by lia. fold p x.
        rewrite (bezier_app (firstn k degs) [p] (firstn k xs) [x])
          by (rewrite !firstn_length; lia).
        rewrite (bezier_ext (firstn k degs) (firstn k xs) _
          (fun a => vsum (S p) (fun j => vscale (bernstein p j x)
             (nth (a + off * (j + (p + 1) * m)) P v0)))).
        2:{ intros a Ha. rewrite bezier_cons. apply vsum_ext. intros j Hj. f_equal.
            simpl. f_equal. fold off. unfold off. lia. }
        rewrite bezier_vsum. apply vsum_ext. intros j Hj. rewrite bezier_scale. f_equal.
        replace ((0 + j) * off + off * (p + 1) * m) with (off * (j + (p + 1) * m)) by lia.
        apply HN. rewrite Esk. fold cnt. nia. }
    + split; [auto|]. split; [intros; lia|]. auto.
    + intros m c1 Hm (HL1 & HN1 & HO1).
      destruct (decasteljau_loop c1 x p off (off * (p + 1) * m)) as (c2 & E & HL2 & HV & HO2).
      { auto. }
      { rewrite HL1, Etot. assert (m + 1 <= cnt) by lia.
        assert (off * (p + 1) * (m + 1) <= off * (p + 1) * cnt) by (apply Nat.mul_le_mono_l; auto).
        nia. }
      exists c2. split; [exact E|]. split; [lia|]. split.
      * intros m' Hm'. destruct (Nat.eq_dec m' m) as [->|Hne].
        -- rewrite HV. unfold dcas. apply vsum_ext. intros j Hj. f_equal. apply HO1. nia.
        -- rewrite HO2. apply HN1; lia.
           left. assert (m' + 1 <= m) by lia.
           assert (off * (p + 1) * (m' + 1) <= off * (p + 1) * m) by (apply Nat.mul_le_mono_l; auto).
           nia.
      * intros i Hi. rewrite HO2 by (right; nia). apply HO1. nia.
Qed.

(** ** BasisFunctions and ForwardEvaluate *)
Definition bern_list (p : nat) (x : T) : list T :=
  map (fun j => bernstein p j x) (seq 0 (S p)).

Lemma nth_bern_list p x j : j <= p -> nth j (bern_list p x) s0 = bernstein p j x.
Proof.
  intros. unfold bern_list.
  rewrite (nth_indep _ s0 (bernstein p 0 x)) by (rewrite map_length, seq_length; lia).
  rewrite (map_nth (fun j => bernstein p j x)). rewrite seq_nth by lia. reflexivity.
Qed.
Lemma length_bern_list p x : length (bern_list p x) = S p.
Proof. unfold bern_list. now rewrite map_length, seq_length. Qed.

Lemma length_map2 {A B C} (f : A -> B -> C) l m :
  length l = length m -> length (map2 f l m) = length l.
Proof. revert m; induction l; destruct m; simpl; intros; auto; discriminate. Qed.
Lemma nth_map2 {A B C} (f : A -> B -> C) l m i da db dc :
  length l = length m -> i < length l ->
  nth i (map2 f l m) dc = f (nth i l da) (nth i m db).
Proof.
  revert m i; induction l; destruct m; simpl; intros; try lia; try discriminate.
  destruct i; auto. apply IHl; lia.
Qed.

Lemma sizes_bern degs xs :
  length xs = length degs -> sizes (map2 bern_list degs xs) = n_coeffs degs.
Proof.
  unfold sizes, n_coeffs. revert xs; induction degs; destruct xs; simpl; intros; auto; try discriminate.
  rewrite IHdegs by lia. now rewrite map_length, seq_length.
Qed.

Lemma tensor_bern degs xs i :
  length xs = length degs -> tensor_at (map2 bern_list degs xs) i = basis_at degs xs i.
Proof.
  revert xs i; induction degs; destruct xs; intros i H; try discriminate; auto.
  cbn [map2 tensor_at basis_at]. rewrite length_bern_list, nth_bern_list.
  - f_equal. apply IHdegs. simpl in H; lia.
  - pose proof (Nat.mod_upper_bound i (S a)). lia.
Qed.

Lemma combine_points_ok (fs : list T) (c : list V) :
  length fs <= length c ->
  combine_points fs c = Ok (vsum (length fs) (fun i => vscale (nth i fs s0) (nth i c v0))).
Proof.
  intros H. unfold combine_points.
  edestruct (for_up_inv (fun n acc =>
    acc = vsum n (fun i => vscale (nth i fs s0) (nth i c v0)))) as (a & E & ->).
  3:{ rewrite E. reflexivity. }
  - reflexivity.
  - intros i a Hi ->. rewrite (get_ok s0) by lia. cbn [bind]. rewrite (get_ok v0) by lia.
    cbn [bind]. eexists; split; reflexivity.
Qed.

Context (MAXB : nat) (HB : MAXB <= 68).

Lemma Contributions_ok (s : spline V) xs :
  length xs = length (degrees s) ->
  Forall (fun p => p < MAXB) (degrees s) ->
  BasisFunctionContributions MAXB s xs = Ok (map2 bern_list (degrees s) xs).
Proof.
  intros HX Hp. unfold BasisFunctionContributions.
  edestruct (for_up_inv (fun k (fs : list (list T)) => length fs = length (degrees s) /\
    forall j, j < k -> nth j fs [] = bern_list (nth j (degrees s) 0) (nth j xs s0)))
    as (fs & E & HL & HN).
  3:{ rewrite E. f_equal. apply (list_ext []).
      - rewrite length_map2; lia.
      - intros i Hi. rewrite HN by lia. rewrite (nth_map2 _ _ _ _ 0 s0) by lia. reflexivity. }
  - rewrite repeat_length. split; auto. intros; lia.
  - intros k fs Hk (HL & HN). rewrite (get_ok 0) by lia. cbn [bind].
    rewrite (get_ok s0) by lia. cbn [bind].
    rewrite BernsteinEvaluate_ok by (auto; eapply Forall_forall in Hp; eauto using nth_In; apply nth_In; lia).
    cbn [bind]. rewrite set_ok by lia. eexists; split; [reflexivity|].
    rewrite length_upd. split; auto. intros j Hj. rewrite nth_upd by lia.
    destruct (Nat.eqb_spec j k) as [->|]; auto. apply HN. lia.
Qed.

Lemma BasisFunctions_ok (s : spline V) xs :
  wf s -> length xs = length (degrees s) ->
  Forall (fun p => p < MAXB) (degrees s) ->
  BasisFunctions MAXB s xs =
  Ok (map (basis_at (degrees s) xs) (seq 0 (n_coeffs (degrees s)))).
Proof.
  intros Hw HX Hp. unfold BasisFunctions. rewrite Contributions_ok by auto. cbn [bind].
  rewrite RecursiveCombine_ok.
  - rewrite sizes_bern by auto. f_equal. apply map_ext. intros. apply tensor_bern. auto.
  - pose proof (wf_dim s Hw). destruct (degrees s), xs; simpl in *; try lia; discriminate.
Qed.

Theorem ForwardEvaluate_ok (s : spline V) xs :
  wf s -> length xs = length (degrees s) ->
  Forall (fun p => p < MAXB) (degrees s) ->
  ForwardEvaluate MAXB s xs =
  Ok (bez (degrees s) xs (fun i => nth i (control_points s) v0)).
Proof.
  intros Hw HX Hp. unfold ForwardEvaluate. rewrite BasisFunctions_ok by auto. cbn [bind].
  destruct Hw as (Hd & Hn & Ho & Hc).
  rewrite combine_points_ok by (rewrite map_length, seq_length; lia).
  rewrite map_length, seq_length. f_equal. rewrite bezier_flat by auto.
  apply vsum_ext. intros i Hi. f_equal. apply nth_map_seq. auto.
Qed.

End Bez.
