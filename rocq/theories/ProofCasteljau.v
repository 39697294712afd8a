(** What Evaluate computes, operation by operation, whatever the arithmetic. *)
From Coq Require Import Arith Lia List ZArith NArith Bool.
From Verif Require Import Prelude Scalar Spec SpecSpline Sums ModelBasis ModelSpline ProofIndex ProofBasis ProofEval.
Import ListNotations.
Local Open Scope nat_scope.

Section Casteljau.
Context {T V : Type} {o : SOps T} {ov : VOps T V}.

(** [r] rounds of the de Casteljau recurrence on the coefficients [f], starting at [j]. *)
Fixpoint dc (x : T) (f : nat -> V) (r j : nat) : V :=
  match r with
  | O => f j
  | S r' => vadd (vscale (ssub s1 x) (dc x f r' j)) (vscale x (dc x f r' (S j)))
  end.
Fixpoint dct (degs : list nat) (xs : list T) (f : nat -> V) : V :=
  match degs, xs with
  | p :: degs', x :: xs' => dct degs' xs' (fun m => dc x (fun j => f (j + S p * m)) p 0)
  | _, _ => f 0
  end.

Lemma dc_ext x f g r j : (forall i, j <= i <= j + r -> f i = g i) -> dc x f r j = dc x g r j.
Proof.
  revert j; induction r; intros j H; cbn [dc]; [apply H; lia|].
  rewrite (IHr j), (IHr (S j)); auto; intros; apply H; lia.
Qed.
Lemma dct_ext degs xs f g : (forall i, i < n_coeffs degs -> f i = g i) -> dct degs xs f = dct degs xs g.
Proof.
  revert xs f g; induction degs as [|p degs IH]; intros xs f g H; [apply H; unfold n_coeffs; simpl; lia|].
  destruct xs as [|x xs]; [apply H; apply n_coeffs_pos|]. cbn [dct]. apply IH. intros m Hm.
  apply dc_ext. intros i Hi. apply H. rewrite n_coeffs_cons. nia.
Qed.
Lemma dct_snoc pre p xp x (f : nat -> V) : length xp = length pre ->
  dct (pre ++ [p]) (xp ++ [x]) f = dc x (fun j => dct pre xp (fun a => f (a + n_coeffs pre * j))) p 0.
Proof.
  revert xp f; induction pre as [|q pre IH]; intros [|y xp] f H; try discriminate.
  - simpl. apply dc_ext. intros i Hi. f_equal. unfold n_coeffs; simpl; lia.
  - simpl app. cbn [dct]. rewrite IH by (simpl in H; lia). apply dc_ext. intros j Hj.
    apply dct_ext. intros m Hm. apply dc_ext. intros i Hi. f_equal. rewrite n_coeffs_cons. lia.
Qed.

Lemma dc_loop (c : list V) (x : T) p st ofs :
  0 < st -> ofs + p * st < length c ->
  exists c',
    for_up 0 (p + 1) (fun i cps =>
        for_up 0 (p - i) (fun j cps =>
          do a <- get cps (j * st + ofs);
          do b <- get cps ((j + 1) * st + ofs);
          set cps (j * st + ofs)
            (vadd (vscale (ssub s1 x) a) (vscale x b))) cps) c = Ok c' /\
    length c' = length c /\
    nth ofs c' v0 = dc x (fun j => nth (j * st + ofs) c v0) p 0 /\
    (forall k, k < ofs \/ ofs + p * st < k -> nth k c' v0 = nth k c v0).
Proof.
  intros Hst Hlen. set (f := fun j => nth (j * st + ofs) c v0).
  edestruct (for_up_inv (fun i (c' : list V) => length c' = length c /\
     (forall j, j <= p -> nth (j * st + ofs) c' v0 = dc x f (min i (p - j)) j) /\
     (forall k, k < ofs \/ ofs + p * st < k -> nth k c' v0 = nth k c v0)))
    as (c' & E & HL & HN & HO).
  3:{ exists c'. split; [exact E|]. split; [auto|]. split; [|auto].
      specialize (HN 0 ltac:(lia)). simpl in HN. rewrite HN.
      f_equal. lia. }
  - split; [auto|]. split; [|auto]. intros j Hj. simpl. reflexivity.
  - intros i c1 Hi (HL & HN & HO).
    edestruct (for_up_inv (fun j0 (c' : list V) => length c' = length c /\
       (forall j, j <= p -> nth (j * st + ofs) c' v0 =
          dc x f (min (if j <? j0 then S i else i) (p - j)) j) /\
       (forall k, k < ofs \/ ofs + p * st < k -> nth k c' v0 = nth k c v0)))
      as (c' & E & HL' & HN' & HO').
    3:{ exists c'. split; [exact E|]. split; [auto|]. split; [|auto].
        intros j Hj. rewrite HN' by auto.
        destruct (Nat.ltb_spec j (0 + (p - i))); auto.
        f_equal. lia. }
    + split; [auto|]. split; [|auto]. intros j Hj. rewrite HN by auto. reflexivity.
    + intros j0 c2 Hj0 (HL2 & HN2 & HO2).
      assert (j0 * st + ofs < length c2) by (rewrite HL2; nia).
      assert ((j0 + 1) * st + ofs < length c2) by (rewrite HL2; nia).
      rewrite (get_ok v0) by auto. cbn [bind]. rewrite (get_ok v0) by auto. cbn [bind].
      rewrite set_ok by auto. eexists; split; [reflexivity|]. rewrite length_upd.
      split; [auto|]. split.
      * intros j Hj. rewrite nth_upd by auto.
        destruct (Nat.eqb_spec (j * st + ofs) (j0 * st + ofs)) as [Ej|Ej].
        -- assert (j = j0) by nia. subst j.
           rewrite !HN2 by lia. rewrite Nat.ltb_irrefl.
           rewrite (proj2 (Nat.ltb_ge (j0 + 1) j0)) by lia.
           rewrite (proj2 (Nat.ltb_lt j0 (S j0))) by lia.
           replace (min (S i) (p - j0)) with (S i) by lia.
           replace (min i (p - j0)) with i by lia.
           replace (min i (p - (j0 + 1))) with i by lia.
           cbn [dc]. rewrite Nat.add_1_r. reflexivity.
        -- rewrite HN2 by auto. f_equal. f_equal.
           destruct (Nat.ltb_spec j j0), (Nat.ltb_spec j (S j0)); auto; try lia.
           exfalso. apply Ej. f_equal. f_equal. lia.
      * intros k Hk. rewrite nth_upd_other by nia. auto.
Qed.

Lemma Evaluate_dct (s : spline V) (xs : list T) :
  wf s -> length xs = length (degrees s) ->
  Evaluate s xs = Ok (dct (degrees s) xs (fun i => nth i (control_points s) v0)).
Proof.
  intros Hw HX. pose proof Hw as (Hd & Hn & Ho & Hc). unfold Evaluate.
  set (degs := degrees s) in *. set (P := control_points s) in *.
  edestruct (for_up_inv (fun k '((c, cnt) : list V * nat) =>
      cnt = n_coeffs (skipn k degs) /\ length c = n_coeffs degs /\
      forall m, m < cnt -> nth (n_coeffs (firstn k degs) * m) c v0 =
        dct (firstn k degs) (firstn k xs) (fun a => nth (a + n_coeffs (firstn k degs) * m) P v0)))
    as ([c cnt] & E & Hcnt & HL & HN).
  3:{ rewrite E. cbn [bind]. rewrite Nat.add_0_l in *.
      rewrite (get_ok v0) by (rewrite HL; apply n_coeffs_pos). f_equal.
      specialize (HN 0). rewrite Nat.mul_0_r in HN. rewrite HN.
      - rewrite !firstn_all2 by lia. apply dct_ext. intros. f_equal. lia.
      - rewrite Hcnt. apply n_coeffs_pos. }
  - split; [exact Hn|]. split; [exact Hc|]. intros m Hm. simpl. f_equal.
  - intros k [c cnt] Hk (-> & HL & HN).
    assert (Hkl : k < length degs) by lia.
    rewrite (get_ok s0 xs) by lia. cbn [bind].
    rewrite (get_ok 0 degs) by lia. cbn [bind].
    rewrite Ho. rewrite (get_ok 0) by (rewrite length_offsets; lia). cbn [bind].
    rewrite nth_offsets by lia.
    set (p := nth k degs 0). set (x := nth k xs s0). set (off := n_coeffs (firstn k degs)) in *.
    assert (Hoff : 0 < off) by apply n_coeffs_pos.
    assert (Esk : n_coeffs (skipn k degs) = (p + 1) * n_coeffs (skipn (S k) degs)).
    { rewrite (skipn_cons_nth 0) by auto. rewrite n_coeffs_cons. fold p. lia. }
    assert (Efi : n_coeffs (firstn (S k) degs) = off * (p + 1)).
    { rewrite (firstn_S_nth 0) by auto. rewrite n_coeffs_app, n_coeffs_cons.
      unfold n_coeffs at 2. simpl prod. fold p. unfold off. lia. }
    rewrite Esk. rewrite (Nat.mul_comm (p + 1)), Nat.div_mul by lia.
    set (cnt := n_coeffs (skipn (S k) degs)).
    assert (Etot : n_coeffs degs = off * (p + 1) * cnt).
    { rewrite (n_coeffs_split degs k), Esk. fold off cnt. lia. }
    edestruct (for_up_inv (fun m (c' : list V) => length c' = n_coeffs degs /\
       (forall m', m' < m -> nth (off * (p + 1) * m') c' v0 =
          dc x (fun j => nth (j * off + off * (p + 1) * m') c v0) p 0) /\
       (forall i, off * (p + 1) * m <= i -> nth i c' v0 = nth i c v0)))
      as (c' & E & HL' & HN' & HO').
    3:{ rewrite E. cbn [bind]. eexists; split; [reflexivity|].
        split; [reflexivity|]. split; [auto|]. intros m Hm. rewrite Efi.
        rewrite HN' by auto.
        rewrite (firstn_S_nth 0 degs) by auto. rewrite (firstn_S_nth s0 xs) by lia. fold p x.
        rewrite dct_snoc by (rewrite !firstn_length; lia).
        apply dc_ext. intros j Hj. fold off.
        replace (j * off + off * (p + 1) * m) with (off * (j + (p + 1) * m)) by lia.
        rewrite HN by (rewrite Esk; fold cnt; nia). apply dct_ext. intros a Ha. f_equal. lia. }
    + split; [auto|]. split; [intros; lia|]. auto.
    + intros m c1 Hm (HL1 & HN1 & HO1).
      destruct (dc_loop c1 x p off (off * (p + 1) * m)) as (c2 & E & HL2 & HV & HO2).
      { auto. }
      { rewrite HL1, Etot. assert (m + 1 <= cnt) by lia.
        assert (off * (p + 1) * (m + 1) <= off * (p + 1) * cnt) by (apply Nat.mul_le_mono_l; auto).
        nia. }
      exists c2. split; [exact E|]. split; [lia|]. split.
      * intros m' Hm'. destruct (Nat.eq_dec m' m) as [->|Hne].
        -- rewrite HV. apply dc_ext. intros j Hj. apply HO1. nia.
        -- rewrite HO2. apply HN1; lia.
           left. assert (m' + 1 <= m) by lia.
           assert (off * (p + 1) * (m' + 1) <= off * (p + 1) * m) by (apply Nat.mul_le_mono_l; auto).
           nia.
      * intros i Hi. rewrite HO2 by (right; nia). apply HO1. nia.
Qed.
End Casteljau.

(** Maps that commute with the operations commute with the recurrence. *)
Section Hom.
Context {T V W : Type} {o : SOps T} {ov : VOps T V} {ow : VOps T W} (h : V -> W).
Context (Ha : forall a b, h (vadd a b) = vadd (h a) (h b)) (Hs : forall c a, h (vscale c a) = vscale c (h a)).
Lemma dc_hom x f r j : h (dc x f r j) = dc x (fun i => h (f i)) r j.
Proof using Ha Hs. revert j; induction r; intros j; cbn [dc]; auto. rewrite Ha, !Hs, !IHr. reflexivity. Qed.
Lemma dct_hom degs xs f : h (dct degs xs f) = dct degs xs (fun i => h (f i)).
Proof using Ha Hs.
  revert xs f; induction degs as [|p degs IH]; intros xs f; [reflexivity|]. destruct xs; [reflexivity|]. cbn [dct].
  rewrite IH. apply dct_ext. intros. apply dc_hom.
Qed.
End Hom.

(** In exact arithmetic this is the textbook formula. *)
Lemma dct_bezier {T V} {o : SOps T} {ov : VOps T V} {F : SField T} {M : VMod T V} degs xs (f : nat -> V) :
  length xs = length degs -> dct degs xs f = bezier degs xs f.
Proof.
  revert xs f; induction degs as [|p degs IH]; intros [|x xs] f H; try discriminate; auto.
  cbn [dct]. rewrite IH by (simpl in H; lia). rewrite bezier_cons.
  assert (D : forall g r j, dc x g r j = dcas x g r j).
  { intros g r. induction r; intros j; [now rewrite dcas_0|]. rewrite dcas_S. cbn [dc]. now rewrite !IHr. }
  rewrite (bezier_ext degs xs _ (fun m => vsum (S p) (fun j => vscale (bernstein p j x) (f (j + S p * m))))).
  - rewrite bezier_vsum. apply vsum_ext. intros j Hj. apply bezier_scale.
  - intros m Hm. rewrite D. reflexivity.
Qed.
