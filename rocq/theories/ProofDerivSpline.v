(** The derivative spline (in-place differences of the control points). *)
From Coq Require Import Arith Lia List ZArith NArith Bool Ring Field.
From Verif Require Import Prelude Scalar Spec SpecSpline Sums Coord ModelBasis ModelSpline
  ProofIndex ProofBasis ProofEval ProofElevate ProofArith ProofMul ProofDeriv.
Import ListNotations.
Local Open Scope nat_scope.

(** ** Positions *)
Lemma position_step degs mi i j : length mi = length degs -> i < length degs ->
  position degs (upd_list mi i (nth i mi 0 + j)) = position degs mi + n_coeffs (firstn i degs) * j.
Proof.
  revert mi i; induction degs as [|p degs IH]; intros [|m mi] i HL Hi; try discriminate; [simpl in Hi; lia|].
  destruct i as [|i].
  - cbn [upd_list nth position firstn]. unfold n_coeffs. simpl prod. lia.
  - cbn [upd_list nth position firstn]. rewrite IH by (simpl in *; lia). rewrite n_coeffs_cons. nia.
Qed.

Lemma position_inj degs a b : valid_index degs a -> valid_index degs b -> position degs a = position degs b -> a = b.
Proof. intros Ha Hb E. rewrite <- (index_of_position degs a Ha), <- (index_of_position degs b Hb). congruence. Qed.

Lemma valid_le degs degs' mi : Forall2 le degs degs' -> valid_index degs mi -> valid_index degs' mi.
Proof.
  intros H. revert mi. induction H; intros mi Hm; inversion Hm; subst; constructor; [lia|]. apply IHForall2; auto.
Qed.
Lemma valid_upd degs mi i x : valid_index degs mi -> x <= nth i degs 0 -> i < length degs ->
  valid_index degs (upd_list mi i x).
Proof.
  intros H. revert i. induction H; intros [|i] Hx Hi; simpl in *; try lia; constructor; auto.
  apply IHForall2; auto. lia.
Qed.
Lemma valid_upd_degs degs mi i q : valid_index (upd_list degs i q) mi -> i < length degs -> q <= nth i degs 0 -> valid_index degs mi.
Proof.
  revert mi i; induction degs as [|p degs IH]; intros mi i H Hi Hq; [simpl in Hi; lia|].
  destruct i; simpl in *; inversion H; subst; constructor; auto; try lia. apply (IH _ i); auto. lia.
Qed.
Lemma valid_nth_le degs mi k : valid_index degs mi -> nth k mi 0 <= nth k degs 0.
Proof. intros H. revert k. induction H; intros [|k]; simpl; auto. Qed.
Lemma valid_len degs mi : valid_index degs mi -> length mi = length degs.
Proof. apply valid_index_length. Qed.

Lemma upd_upd {A} (l : list A) i a b : upd_list (upd_list l i a) i b = upd_list l i b.
Proof. revert i; induction l; intros [|i]; simpl; auto. now rewrite IHl. Qed.

Lemma nth_map2_sub l m k : length m = length l -> k < length l ->
  nth k (map2 Nat.sub l m) 0 = nth k l 0 - nth k m 0.
Proof. revert m k; induction l; intros [|b m] [|k] H Hk; simpl in *; try lia; auto. apply IHl; lia. Qed.
Lemma le_nth l m : Forall2 le l m -> forall j, nth j l 0 <= nth j m 0.
Proof. induction 1; intros [|j]; simpl; auto. Qed.
Lemma Forall2_nth_le l m : length l = length m -> (forall j, j < length l -> nth j l 0 <= nth j m 0) -> Forall2 le l m.
Proof.
  revert m; induction l; intros [|b m] H HN; try discriminate; constructor.
  - apply (HN 0). simpl; lia.
  - apply IHl; [simpl in H; lia|]. intros j Hj. apply (HN (S j)). simpl; lia.
Qed.

Lemma Forall2_len {A B} (R : A -> B -> Prop) l m : Forall2 R l m -> length l = length m.
Proof. induction 1; simpl; auto. Qed.

Lemma multi_index_ok nd g : nd <> [] -> multi_index_of nd g = Ok (index_of nd g).
Proof.
  intros HN. assert (HL : 0 < length nd) by (destruct nd; [congruence|simpl; lia]).
  unfold multi_index_of. rewrite (get_ok 0) by lia. cbn [bind].
  rewrite set_ok by (rewrite repeat_length; lia). cbn [bind].
  edestruct (for_up_inv (fun i '(mi, gid) => length mi = length nd /\ gid = g / n_coeffs (firstn (i - 1) nd) /\
    forall j, j < i -> nth j mi 0 = nth j (index_of nd g) 0)) as ((mi & gid) & E & L & _ & HM).
  3:{ rewrite E. cbn [bind]. f_equal. apply (list_ext 0); [rewrite length_index_of; auto|].
      intros i Hi. apply HM. lia. }
  - cbv beta iota. rewrite length_upd, repeat_length. split; auto. split.
    + change (n_coeffs (firstn (1 - 1) nd)) with 1. symmetry; apply Nat.div_1_r.
    + intros j Hj. replace j with 0 by lia. rewrite nth_upd_same by (rewrite repeat_length; lia).
      rewrite nth_index_of by lia. change (n_coeffs (firstn 0 nd)) with 1. rewrite Nat.div_1_r, Nat.add_1_r. reflexivity.
  - intros i [mi gid] Hi (HLm & -> & HM). cbv beta iota. rewrite (get_ok 0) by lia. cbn [bind].
    rewrite (get_ok 0) by lia. cbn [bind]. rewrite set_ok by lia. cbn [bind].
    assert (ED : g / n_coeffs (firstn (i - 1) nd) / (nth (i - 1) nd 0 + 1) = g / n_coeffs (firstn i nd)).
    { rewrite Nat.div_div by (pose proof (n_coeffs_pos (firstn (i - 1) nd)); lia).
      f_equal. replace (firstn i nd) with (firstn (S (i - 1)) nd) by (f_equal; lia).
      rewrite (firstn_S_nth 0) by lia. rewrite n_coeffs_app. unfold n_coeffs at 3. simpl. lia. }
    eexists. split; [reflexivity|]. cbv beta iota. rewrite length_upd. split; auto. split.
    + rewrite ED. f_equal. f_equal. f_equal. lia.
    + intros j Hj. rewrite nth_upd by lia. destruct (Nat.eqb_spec j i) as [->|].
      * rewrite ED. rewrite nth_index_of by lia. rewrite Nat.add_1_r. reflexivity.
      * apply HM. lia.
Qed.

Section D.
Context {T V : Type} {o : SOps T} {ov : VOps T V} {F : SField T} {M : VMod T V}.
Add Field Tfield : (@sf_th T o F).
Add Ring Ering : (@ext_ring T V o ov F M).
Ltac vring := to_ext; ring.

(** [k]-fold difference in direction [i], scaled for degree [p]. *)
Definition dstep (i k p : nat) (G : list nat -> V) (mi : list nat) : V :=
  vscale (smul (sgn k) (ffall p k))
    (vsum (S k) (fun j => vscale (smul (sgn j) (sofN (binom k j))) (G (upd_list mi i (nth i mi 0 + j))))).

Lemma upd_at_0 (mi : list nat) i : upd_list mi i (nth i mi 0 + 0) = mi.
Proof. revert i; induction mi; intros [|i]; simpl; auto; [now rewrite Nat.add_0_r|now rewrite IHmi]. Qed.

Lemma dstep_0 i p G mi : dstep i 0 p G mi = G mi.
Proof.
  unfold dstep. cbn [ffall vsum]. rewrite upd_at_0, binom_n_0, sofN_1. unfold sgn. simpl (Nat.even 0). vring.
Qed.

Lemma dstep_eq i i' k p G G' mi mi' :
  (forall j, G (upd_list mi i (nth i mi 0 + j)) = G' (upd_list mi' i' (nth i' mi' 0 + j))) ->
  dstep i k p G mi = dstep i' k p G' mi'.
Proof. intros H. unfold dstep. f_equal. apply vsum_ext. intros j Hj. now rewrite H. Qed.

(** After the directions below [n]. *)
Fixpoint Giter (ks degs : list nat) (G : list nat -> V) (n : nat) : list nat -> V :=
  match n with
  | 0 => G
  | S i => dstep i (nth i ks 0) (nth i degs 0) (Giter ks degs G i)
  end.

Lemma Giter_cons k ks p degs G n : forall m mi,
  Giter (k :: ks) (p :: degs) G (S n) (m :: mi) = Giter ks degs (fun r => dstep 0 k p G (m :: r)) n mi.
Proof.
  induction n; intros m mi; [reflexivity|].
  change (Giter (k :: ks) (p :: degs) G (S (S n))) with
    (dstep (S n) (nth n ks 0) (nth n degs 0) (Giter (k :: ks) (p :: degs) G (S n))).
  change (Giter ks degs (fun r => dstep 0 k p G (m :: r)) (S n)) with
    (dstep n (nth n ks 0) (nth n degs 0) (Giter ks degs (fun r => dstep 0 k p G (m :: r)) n)).
  apply dstep_eq. intros j. cbn [upd_list nth]. apply IHn.
Qed.

Lemma dbern_coeffs k p x (h : nat -> V) : k <= p ->
  vsum (S (p - k)) (fun m => vscale (bernstein (p - k) m x) (vscale (smul (sgn k) (ffall p k))
    (vsum (S k) (fun j => vscale (smul (sgn j) (sofN (binom k j))) (h (m + j)))))) =
  vsum (S p) (fun i => vscale (dbern k p i x) (h i)).
Proof.
  intros Hk. unfold dbern.
  transitivity (vsum (S k) (fun j => vscale (smul (smul (ffall p k) (sgn (k + j))) (sofN (binom k j)))
    (vsum (S (p - k)) (fun m => vscale (bernstein (p - k) m x) (h (m + j)))))).
  - transitivity (vsum (S (p - k)) (fun m => vsum (S k) (fun j =>
      vscale (smul (smul (ffall p k) (sgn (k + j))) (sofN (binom k j))) (vscale (bernstein (p - k) m x) (h (m + j)))))).
    + apply vsum_ext. intros m Hm. rewrite <- !vsum_scale. apply vsum_ext. intros j Hj. rewrite sgn_add. vring.
    + rewrite vsum_swap. apply vsum_ext. intros j Hj. apply vsum_scale.
  - transitivity (vsum (S k) (fun j => vscale (smul (smul (ffall p k) (sgn (k + j))) (sofN (binom k j)))
      (vsum (S p) (fun i => vscale (bshift (p - k) i j x) (h i))))).
    + apply vsum_ext. intros j Hj. f_equal.
      replace (S p) with (j + (S (p - k) + (k - j))) by lia. rewrite !vsum_app.
      rewrite (vsum_zero j).
      2:{ intros i Hi. unfold bshift. rewrite (proj2 (Nat.leb_gt j i)) by lia. vring. }
      rewrite (vsum_zero (k - j)).
      2:{ intros i Hi. unfold bshift. rewrite (proj2 (Nat.leb_le j _)) by lia. rewrite bernstein_gt by lia. vring. }
      transitivity (vsum (S (p - k)) (fun i => vscale (bshift (p - k) (j + i) j x) (h (j + i)))); [|vring].
      apply vsum_ext. intros m Hm. unfold bshift. rewrite (proj2 (Nat.leb_le j _)) by lia.
      replace (j + m - j) with m by lia. rewrite (Nat.add_comm j m). reflexivity.
    + transitivity (vsum (S k) (fun j => vsum (S p) (fun i =>
        vscale (smul (smul (ffall p k) (sgn (k + j))) (sofN (binom k j))) (vscale (bshift (p - k) i j x) (h i))))).
      { apply vsum_ext. intros j Hj. symmetry. apply vsum_scale. }
      rewrite vsum_swap. apply vsum_ext. intros i Hi. rewrite <- ssum_scale, <- vsum_scale_l.
      apply vsum_ext. intros j Hj. vring.
Qed.

Lemma Giter_value : forall degs ks xs G, length ks = length degs -> length xs = length degs ->
  Forall2 le ks degs ->
  dmbez (repeat 0 (length degs)) (map2 Nat.sub degs ks) xs (Giter ks degs G (length degs)) = dmbez ks degs xs G.
Proof.
  induction degs as [|p degs IH]; intros [|k ks] [|x xs] G H1 H2 HL; try discriminate; auto.
  inversion HL as [|? ? ? ? Hkp HL']; subst.
  cbn [length repeat map2 dmbez]. rewrite <- (dbern_coeffs k p x (fun i => dmbez ks degs xs (fun r => G (i :: r)))) by lia. apply vsum_ext. intros m Hm.
  rewrite dbern_0. f_equal.
  transitivity (dmbez (repeat 0 (length degs)) (map2 Nat.sub degs ks) xs
    (Giter ks degs (fun r => dstep 0 k p G (m :: r)) (length degs))).
  { apply dmbez_ext.
    - rewrite repeat_length, length_map2 by (simpl in *; lia). simpl in *; lia.
    - rewrite length_map2 by (simpl in *; lia). simpl in *; lia.
    - intros mi _. apply Giter_cons. }
  rewrite IH; [|simpl in *; lia..|exact HL'].
  unfold dstep. rewrite dmbez_scale. f_equal. rewrite dmbez_vsum. apply vsum_ext. intros j Hj.
  rewrite dmbez_scale. reflexivity.
Qed.

(** ** One direction of the loop *)
Context (MAXB : nat) (HB : MAXB <= 68).

Lemma factor_loop p k : 0 < k ->
  for_up 1 (k - 1) (fun i f => Ok (smul f (sofnat (p - i)))) (sofnat p) = Ok (ffall p k : T).
Proof.
  intros Hk. edestruct (for_up_inv (fun i v => v = (ffall p i : T))) as (v & E & ->).
  3:{ rewrite E. do 2 f_equal. lia. }
  - cbn [ffall]. rewrite Nat.sub_0_r. ring.
  - intros i v Hi ->. eexists. split; reflexivity.
Qed.

Definition holds (s : spline V) (nd : list nat) (cps : list V) (G : list nat -> V) : Prop :=
  length cps = length (control_points s) /\
  forall mi, valid_index nd mi -> nth (position (degrees s) mi) cps v0 = G mi.

Definition dir_step (s : spline V) (orders : list nat) (i_para_dim : nat) (st : list nat * list V) :=
  let '(nd, cps) := st in
    do k <- get orders i_para_dim;
    if k =? 0 then Ok (nd, cps) else
    do q <- get nd i_para_dim;
    do _ <- (if q <? k then UB else Ok tt);
    do nd <- set nd i_para_dim (q - k);
    do p <- get (degrees s) i_para_dim;
    do factor <- for_up 1 (k - 1) (fun i f => Ok (smul f (sofnat (p - i)))) (sofnat p);
    do n <- count_points_nd nd;
    do cps <- for_up 0 n (fun i_point cps =>
      do mi <- multi_index_of nd i_point;
      do i_point_index <- GlobalToLocalIndex s mi;
      do '(cps, _) <- for_up 1 k (fun j_point_offset '(cps, mi) =>
        do m <- get mi i_para_dim;
        do mi <- set mi i_para_dim (m + 1);
        do b <- choose MAXB k j_point_offset;
        let local_coefficient :=
          smul (if Nat.even j_point_offset then s1 else sopp s1) (sofN b) in
        do gi <- GlobalToLocalIndex s mi;
        do x <- get cps gi;
        do y <- get cps i_point_index;
        do cps <- set cps i_point_index (vadd y (vscale local_coefficient x));
        Ok (cps, mi)) (cps, mi);
      do y <- get cps i_point_index;
      set cps i_point_index
        (vscale (smul (if Nat.even k then s1 else sopp s1) factor) y)) cps;
    Ok (nd, cps).

Lemma dir_step_ok (s : spline V) orders i nd cps G :
  wf s -> length orders = length (degrees s) -> i < length (degrees s) ->
  Forall2 le nd (degrees s) -> nth i nd 0 = nth i (degrees s) 0 ->
  nth i orders 0 <= nth i (degrees s) 0 -> nth i orders 0 < MAXB ->
  holds s nd cps G ->
  exists cps', dir_step s orders i (nd, cps) = Ok (upd_list nd i (nth i (degrees s) 0 - nth i orders 0), cps') /\
    holds s (upd_list nd i (nth i (degrees s) 0 - nth i orders 0)) cps'
      (dstep i (nth i orders 0) (nth i (degrees s) 0) G).
Proof.
  intros Hw HLo Hi Hnd Hni Hle Hmb (HL & HG).
  pose proof Hw as (Hd & Hn & Hof & Hc).
  assert (HLn : length nd = length (degrees s)) by (eapply Forall2_len; eauto).
  unfold dir_step. rewrite (get_ok 0) by lia. cbn [bind].
  set (k := nth i orders 0) in *. set (p := nth i (degrees s) 0) in *.
  destruct (Nat.eqb_spec k 0) as [Hk0|Hk0].
  { exists cps. rewrite Hk0, Nat.sub_0_r. rewrite <- Hni.
    replace (upd_list nd i (nth i nd 0)) with nd by (symmetry; rewrite <- (Nat.add_0_r (nth i nd 0)); apply upd_at_0).
    split; auto. split; auto. intros mi Hm. rewrite dstep_0. auto. }
  rewrite (get_ok 0) by lia. cbn [bind]. rewrite Hni. fold p.
  rewrite (proj2 (Nat.ltb_ge p k)) by lia. cbn [bind]. rewrite set_ok by lia. cbn [bind].
  rewrite (get_ok 0) by lia. cbn [bind]. fold p. rewrite factor_loop by lia. cbn [bind].
  set (nd' := upd_list nd i (p - k)).
  assert (HLn' : length nd' = length (degrees s)) by (unfold nd'; rewrite length_upd; auto).
  assert (Hnn : nd' <> []) by (intros E; rewrite E in HLn'; simpl in HLn'; lia).
  unfold count_points_nd. rewrite count_points_ok. cbn [bind].
  assert (Hval : forall mi, valid_index nd' mi -> valid_index nd mi).
  { intros mi Hm. apply (valid_upd_degs nd mi i (p - k)); auto; lia. }
  assert (Hval2 : forall mi, valid_index nd mi -> valid_index (degrees s) mi).
  { intros mi Hm. eapply valid_le; eauto. }
  assert (Hpos : forall mi, valid_index nd mi -> position (degrees s) mi < length cps).
  { intros mi Hm. rewrite HL, Hc. apply position_lt. auto. }
  edestruct (for_up_inv (fun g c => length c = length cps /\
    (forall g', g' < g -> nth (position (degrees s) (index_of nd' g')) c v0 = dstep i k p G (index_of nd' g')) /\
    (forall mi, valid_index nd mi -> (forall g', g' < g -> mi <> index_of nd' g') ->
       nth (position (degrees s) mi) c v0 = G mi))) as (c & E & HLc & H1 & H2).
  3:{ rewrite E. cbn [bind]. exists c. split; [reflexivity|]. split; [congruence|].
      intros mi Hm. rewrite <- (index_of_position nd' mi Hm). apply H1. apply position_lt. auto. }
  - split; auto. split; [intros; lia|]. intros mi Hm _. auto.
  - intros g c Hg (HLc & H1 & H2). cbv beta. rewrite multi_index_ok by auto. cbn [bind].
    set (mi0 := index_of nd' g).
    assert (Hv0 : valid_index nd' mi0) by apply index_of_valid.
    assert (HLm : length mi0 = length (degrees s)) by (unfold mi0; rewrite length_index_of; auto).
    rewrite GlobalToLocal_ok by auto. cbn [bind].
    set (ip := position (degrees s) mi0).
    assert (Hm0 : nth i mi0 0 <= p - k).
    { pose proof (valid_nth_le _ _ i Hv0) as A. unfold nd' in A. rewrite nth_upd_same in A by lia. exact A. }
    (* sources *)
    assert (Hsrc : forall j, j <= k -> valid_index nd (upd_list mi0 i (nth i mi0 0 + j))).
    { intros j Hj. apply valid_upd; [apply Hval; auto| |lia]. fold p in Hni. lia. }
    assert (Hsv : forall j, 1 <= j <= k -> nth (position (degrees s) (upd_list mi0 i (nth i mi0 0 + j))) c v0 =
      G (upd_list mi0 i (nth i mi0 0 + j))).
    { intros j Hj. apply H2; [apply Hsrc; lia|]. intros g' Hg' Eq.
      assert (A : position nd' (upd_list mi0 i (nth i mi0 0 + j)) = g').
      { rewrite Eq. apply position_index_of. lia. }
      rewrite position_step in A by lia. unfold mi0 in A. rewrite position_index_of in A by lia.
      lia. }
    assert (Hsp : forall j, 1 <= j <= k -> position (degrees s) (upd_list mi0 i (nth i mi0 0 + j)) <> ip).
    { intros j Hj. unfold ip. rewrite position_step by lia. pose proof (n_coeffs_pos (firstn i (degrees s))). nia. }
    assert (Hip : ip < length c) by (rewrite HLc; apply Hpos; apply Hval; auto).
    edestruct (for_up_inv (fun j '(c', mi) => length c' = length cps /\
      mi = upd_list mi0 i (nth i mi0 0 + (j - 1)) /\
      (forall q, q <> ip -> nth q c' v0 = nth q c v0) /\
      nth ip c' v0 = vsum j (fun j => vscale (smul (sgn j) (sofN (binom k j))) (G (upd_list mi0 i (nth i mi0 0 + j))))))
      as ((c' & mi) & E & HLc' & -> & HO & HI).
    3:{ rewrite E. cbn [bind]. rewrite (get_ok v0) by lia. cbn [bind]. rewrite set_ok by lia.
        eexists. split; [reflexivity|]. rewrite length_upd. split; [auto|].
        assert (HI' : nth ip (upd_list c' ip (vscale (smul (if Nat.even k then s1 else sopp s1) (ffall p k)) (nth ip c' v0))) v0
          = dstep i k p G mi0).
        { rewrite nth_upd_same by lia. rewrite HI. unfold dstep. reflexivity. }
        split.
        - intros g' Hg'. destruct (Nat.eq_dec g' g) as [->|Hne]; [exact HI'|].
          rewrite nth_upd_other.
          + rewrite HO; [apply H1; lia|]. unfold ip. intros A. apply position_inj in A.
            * apply (f_equal (position nd')) in A. unfold mi0 in A. rewrite !position_index_of in A by lia. lia.
            * apply Hval2, Hval, index_of_valid.
            * apply Hval2, Hval; auto.
          + unfold ip. intros A. apply position_inj in A.
            * apply (f_equal (position nd')) in A. unfold mi0 in A. rewrite !position_index_of in A by lia. lia.
            * apply Hval2, Hval, index_of_valid.
            * apply Hval2, Hval; auto.
        - intros mi Hm Hnot. assert (A : position (degrees s) mi <> ip).
          { unfold ip. intros A. apply position_inj in A; auto. apply (Hnot g); auto. }
          rewrite nth_upd_other by auto. rewrite HO by auto. apply H2; auto. }
    + cbv beta iota. split; auto. split; [rewrite upd_at_0; auto|]. split; auto.
      cbn [vsum]. rewrite upd_at_0, binom_n_0, sofN_1. unfold sgn. simpl (Nat.even 0).
      unfold ip. rewrite H2; [vring|apply Hval; auto|].
      intros g' Hg' A. apply (f_equal (position nd')) in A. unfold mi0 in A. rewrite !position_index_of in A by lia. lia.
    + intros j [c' mi] Hj (HLc' & -> & HO & HI). cbv beta iota.
      rewrite (get_ok 0) by (rewrite length_upd; lia). cbn [bind].
      rewrite set_ok by (rewrite length_upd; lia). cbn [bind]. rewrite choose_ok by lia. cbn [bind].
      rewrite nth_upd_same by lia.
      assert (EU : upd_list (upd_list mi0 i (nth i mi0 0 + (j - 1))) i (nth i mi0 0 + (j - 1) + 1) =
        upd_list mi0 i (nth i mi0 0 + j)).
      { replace (nth i mi0 0 + (j - 1) + 1) with (nth i mi0 0 + j) by lia.
        apply upd_upd. }
      rewrite EU. rewrite GlobalToLocal_ok by (auto; rewrite length_upd; lia). cbn [bind].
      rewrite (get_ok v0) by (rewrite HLc'; apply Hpos, Hsrc; lia). cbn [bind].
      rewrite (get_ok v0) by lia. cbn [bind]. rewrite set_ok by lia. cbn [bind].
      eexists. split; [reflexivity|]. cbv beta iota. rewrite length_upd. split; auto.
      split; [do 2 f_equal; lia|]. split.
      * intros q Hq. rewrite nth_upd_other by auto. auto.
      * rewrite nth_upd_same by lia. cbn [vsum]. rewrite HI, HO by (apply Hsp; lia). rewrite Hsv by lia. reflexivity.
Qed.

Lemma dir_loop_ok (s : spline V) orders :
  wf s -> length orders = length (degrees s) -> Forall2 le orders (degrees s) ->
  Forall (fun k => k < MAXB) orders ->
  exists cps, for_up 0 (length (degrees s)) (dir_step s orders) (degrees s, control_points s) =
    Ok (map2 Nat.sub (degrees s) orders, cps) /\
    holds s (map2 Nat.sub (degrees s) orders) cps
      (Giter orders (degrees s) (fun mi => nth (position (degrees s) mi) (control_points s) v0) (length (degrees s))).
Proof.
  intros Hw HL Hle HM.
  assert (Hn : forall j, nth j orders 0 <= nth j (degrees s) 0) by (apply le_nth; exact Hle).
  edestruct (for_up_inv (fun i '(nd, cps) => length nd = length (degrees s) /\
    (forall j, j < length (degrees s) -> nth j nd 0 = if j <? i then nth j (degrees s) 0 - nth j orders 0 else nth j (degrees s) 0) /\
    holds s nd cps (Giter orders (degrees s) (fun mi => nth (position (degrees s) mi) (control_points s) v0) i)))
    as ((nd & cps) & E & L & HN & HH).
  3:{ rewrite E. assert (EN : nd = map2 Nat.sub (degrees s) orders).
      { apply (list_ext 0); [rewrite length_map2 by (symmetry; auto); auto|]. intros j Hj. rewrite HN by lia.
        rewrite (proj2 (Nat.ltb_lt _ _)) by lia. symmetry. apply nth_map2_sub; lia. }
      subst nd. exists cps. split; auto. }
  - cbv beta iota. split; auto. split; [intros; reflexivity|]. split; auto.
  - intros i [nd cps] Hi (L & HN & HH). cbv beta iota.
    assert (Hnd : Forall2 le nd (degrees s)).
    { apply Forall2_nth_le; auto. intros j Hj. rewrite HN by lia. destruct (j <? i); lia. }
    assert (Hni : nth i nd 0 = nth i (degrees s) 0) by (rewrite HN by lia; now rewrite Nat.ltb_irrefl).
    assert (HMi : nth i orders 0 < MAXB) by (eapply Forall_forall in HM; [exact HM|]; apply nth_In; lia).
    destruct (dir_step_ok s orders i nd cps _ Hw HL ltac:(lia) Hnd Hni (Hn i) HMi HH) as (cps' & E & HH').
    + rewrite E. eexists. split; [reflexivity|]. cbv beta iota. rewrite length_upd. split; auto. split.
      * intros j Hj. rewrite nth_upd by lia. destruct (Nat.eqb_spec j i) as [->|].
        -- rewrite (proj2 (Nat.ltb_lt _ _)) by lia. reflexivity.
        -- rewrite HN by lia. destruct (Nat.ltb_spec j i), (Nat.ltb_spec j (S i)); lia.
      * exact HH'.
Qed.

Lemma DerivativeWRT_ok (s : spline V) orders :
  wf s -> length orders = length (degrees s) -> Forall2 le orders (degrees s) ->
  Forall (fun k => k < MAXB) orders ->
  exists r, DerivativeWRT MAXB s orders = Ok r /\ wf r /\ degrees r = map2 Nat.sub (degrees s) orders /\
    forall xs, length xs = length (degrees s) -> value_at r xs =
      dmbez orders (degrees s) xs (fun mi => nth (position (degrees s) mi) (control_points s) v0).
Proof.
  intros Hw HL Hle HM. pose proof Hw as (Hd & Hn & Hof & Hc).
  destruct (dir_loop_ok s orders Hw HL Hle HM) as (cps & E & HLc & HG).
  unfold DerivativeWRT. change (for_up 0 (length (degrees s)) _ (degrees s, control_points s)) with
    (for_up 0 (length (degrees s)) (dir_step s orders) (degrees s, control_points s)).
  rewrite E. cbn [bind]. set (nd := map2 Nat.sub (degrees s) orders) in *.
  assert (HLn : length nd = length (degrees s)) by (unfold nd; rewrite length_map2 by (symmetry; auto); auto).
  assert (Hnn : nd <> []) by (destruct nd, (degrees s); try discriminate; simpl in *; congruence).
  assert (Hnle : Forall2 le nd (degrees s)).
  { apply Forall2_nth_le; auto. intros j Hj. unfold nd. rewrite nth_map2_sub by lia. lia. }
  rewrite Spline_deg_ok by auto. cbn [bind]. set (der := mk nd _).
  assert (Wd : wf der) by (apply wf_mk; [auto|apply repeat_length]).
  change (number_of_control_points der) with (n_coeffs nd).
  edestruct (for_up_inv (fun i c => length c = n_coeffs nd /\
    forall j, j < i -> nth j c v0 = nth (position (degrees s) (index_of nd j)) cps v0)) as (c & E2 & Lc & HN).
  3:{ rewrite E2. cbn [bind]. eexists. split; [reflexivity|].
      split; [apply with_cps_wf; auto|]. split; [reflexivity|].
      intros xs HX. unfold value_at. change (degrees (with_cps der c)) with nd.
      change (control_points (with_cps der c)) with c.
      rewrite <- dmbez_0 by lia. rewrite HLn.
      rewrite <- (Giter_value (degrees s) orders xs) by auto.
      apply dmbez_ext.
      - rewrite repeat_length; auto.
      - rewrite HX. symmetry. exact HLn.
      - intros mi Hm. rewrite HN by (apply position_lt; auto). rewrite index_of_position by auto. auto. }
  - split; [apply repeat_length|]. intros; lia.
  - intros i c Hi (Lc & HN). cbv beta. rewrite LocalToGlobal_ok by auto. cbn [bind].
    change (degrees der) with nd.
    rewrite GlobalToLocal_ok by (auto; rewrite length_index_of; auto). cbn [bind].
    rewrite (get_ok v0).
    2:{ rewrite HLc, Hc. apply position_lt. apply (valid_le nd); auto. apply index_of_valid. }
    cbn [bind]. rewrite set_ok by lia. eexists. split; [reflexivity|]. rewrite length_upd. split; auto.
    intros j Hj. rewrite nth_upd by lia. destruct (Nat.eqb_spec j i) as [->|]; auto. apply HN. lia.
Qed.
End D.
