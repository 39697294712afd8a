(** Subdivision returns pieces that share their faces, whatever the arithmetic. *)
From Coq Require Import Arith Lia List ZArith NArith Bool.
From Verif Require Import Prelude Scalar Spec SpecSpline SpecSeam ModelBasis ModelSpline ProofIndex ProofBasis ProofEval
  ProofElevate ProofSplit ProofCasteljau ProofRaw ClaimsD ClaimsN.
Import ListNotations.
Local Open Scope nat_scope.

Section Seam.
Context {T V : Type} {o : SOps T} {ov : VOps T V}.

Lemma position_line degs mi k : valid_index degs mi -> k < length degs ->
  exists a m, a < n_coeffs (firstn k degs) /\ m < n_coeffs (skipn (S k) degs) /\
    forall j, position degs (upd_list mi k j) = a + n_coeffs (firstn k degs) * (j + (nth k degs 0 + 1) * m).
Proof.
  revert mi k; induction degs as [|p degs IH]; intros mi k HV Hk; [simpl in Hk; lia|].
  inversion HV as [|? i ? mi' Hi HV' E1 E2]; subst. destruct k as [|k].
  - exists 0, (position degs mi'). split; [unfold n_coeffs; simpl; lia|]. split; [apply position_lt; exact HV'|].
    intros j. cbn [upd_list position firstn nth]. unfold n_coeffs. simpl. lia.
  - destruct (IH mi' k HV') as (a & m & Ha & Hm & H); [simpl in Hk; lia|].
    exists (i + S p * a), m. cbn [firstn skipn nth]. rewrite n_coeffs_cons. split; [nia|]. split; [exact Hm|].
    intros j. cbn [upd_list position]. rewrite H. nia.
Qed.

Lemma split_faces (s : spline V) x k parts : wf s -> k < length (degrees s) -> SplitAtPosition s x k = Ok parts ->
  exists l r, parts = [l; r] /\ wf l /\ wf r /\ degrees l = degrees s /\ degrees r = degrees s /\
    same_near_face k l s /\ joined k l r /\ same_far_face k r s.
Proof.
  intros Hw Hk E.
  assert (HX : slt s0 x /\ slt x s1).
  { unfold SplitAtPosition in E. unfold slt. destruct (sltb s0 x); [|discriminate]. destruct (sltb x s1); [auto|discriminate]. }
  destruct (SplitAtPosition_raw s x k Hw Hk (proj1 HX) (proj2 HX)) as (c1 & c2 & E' & L1 & L2 & HN).
  rewrite E' in E. injection E as <-. exists (with_cps s c1), (with_cps s c2).
  split; [reflexivity|]. assert (Hc : length (control_points s) = n_coeffs (degrees s)) by apply Hw.
  split; [apply with_cps_wf; auto; congruence|]. split; [apply with_cps_wf; auto; congruence|].
  split; [reflexivity|]. split; [reflexivity|].
  unfold same_near_face, joined, same_far_face, face_coefficient. cbn [with_cps degrees control_points].
  split; [|split]; intros mi HV; destruct (position_line (degrees s) mi k HV Hk) as (a & m & Ha & Hm & HP); rewrite !HP.
  - rewrite (proj1 (HN a 0 m Ha ltac:(lia) Hm)). reflexivity.
  - rewrite (proj1 (HN a _ m Ha (le_n _) Hm)), (proj2 (HN a 0 m Ha ltac:(lia) Hm)). rewrite Nat.sub_0_r. reflexivity.
  - rewrite (proj2 (HN a _ m Ha (le_n _) Hm)). rewrite Nat.sub_diag. reflexivity.
Qed.

Lemma near_trans k a b c : degrees b = degrees a -> same_near_face k a b -> same_near_face k b c -> same_near_face k a c.
Proof. intros D H1 H2 mi HV. rewrite H1 by auto. apply H2. rewrite D. auto. Qed.
Lemma far_trans k a b c : degrees b = degrees a -> same_far_face k a b -> same_far_face k b c -> same_far_face k a c.
Proof. intros D H1 H2 mi HV. rewrite H1 by auto. apply H2. rewrite D. auto. Qed.
Lemma joined_near k a b c : degrees b = degrees a -> degrees c = degrees a -> joined k a b -> same_near_face k c b -> joined k a c.
Proof. intros D D2 H1 H2 mi HV. rewrite H1 by auto. symmetry. apply H2. rewrite D2. auto. Qed.

Lemma splits_faces (s : spline V) planes k parts : wf s -> k < length (degrees s) -> SplitAtPositions s planes k = Ok parts ->
  length parts = S (length planes) /\ Forall (fun q => wf q /\ degrees q = degrees s) parts /\
  same_near_face k (nth 0 parts s) s /\ same_far_face k (nth (length planes) parts s) s /\
  forall i, i < length planes -> joined k (nth i parts s) (nth (S i) parts s).
Proof.
  intros Hw Hk E. unfold SplitAtPositions in E. destruct (is_sorted planes); [|discriminate]. cbn [negb] in E.
  destruct (Nat.eqb_spec (length planes) 0) as [E0|E0].
  { injection E as <-. rewrite E0. split; [reflexivity|]. split; [repeat constructor; auto; apply Hw|].
    split; [intros mi _; reflexivity|]. split; [intros mi _; reflexivity|]. lia. }
  rewrite (get_ok s0) in E by lia. cbn [bind] in E. apply bind_ok in E. destruct E as (sp & E1 & E).
  destruct (split_faces s _ k sp Hw Hk E1) as (l & r & -> & Wl & Wr & Dl & Dr & N & J & F).
  cbn [get nth_error bind] in E. apply bind_ok in E. destruct E as ([out sp] & E2 & E).
  eapply (for_up_pci (fun i (st : list (spline V) * list (spline V)) => let '(out, sp) := st in
    exists l r, sp = [l; r] /\ length out = i /\ (forall q, In q out -> wf q /\ degrees q = degrees s) /\
      wf r /\ degrees r = degrees s /\ same_near_face k (nth 0 out s) s /\ joined k (nth (i - 1) out s) r /\ same_far_face k r s /\
      forall j, S j < i -> joined k (nth j out s) (nth (S j) out s))) in E2.
  - destruct E2 as (l' & r' & -> & HLo & HW & Wr' & Dr' & N' & J' & F' & HJ). cbn [get nth_error bind] in E. injection E as <-.
    replace (1 + (length planes - 1)) with (length planes) in * by lia.
    split; [rewrite app_length; simpl; lia|]. split.
    { apply Forall_app. split; [apply Forall_forall; exact HW|repeat constructor; auto; apply Wr']. }
    split; [rewrite app_nth1 by lia; exact N'|]. split.
    { rewrite app_nth2 by lia. rewrite HLo, Nat.sub_diag. exact F'. }
    intros i Hi. destruct (Nat.eq_dec i (length planes - 1)) as [->|Hne].
    + rewrite app_nth1, app_nth2 by lia. rewrite HLo. replace (S (length planes - 1) - length planes) with 0 by lia. exact J'.
    + rewrite !app_nth1 by lia. apply HJ. lia.
  - intros i [ou sp'] y Hi HI HB. destruct HI as (l' & r' & -> & HLo & HW & Wr' & Dr' & N' & J' & F' & HJ).
    apply bind_ok in HB. destruct HB as (pi & _ & HB). apply bind_ok in HB. destruct HB as (pm & _ & HB).
    apply bind_ok in HB. destruct HB as (rel & _ & HB). cbn [get nth_error bind] in HB.
    apply bind_ok in HB. destruct HB as (sp2 & E3 & HB).
    assert (Hk' : k < length (degrees r')) by congruence.
    destruct (split_faces r' _ k sp2 Wr' Hk' E3) as (l2 & r2 & -> & Wl2 & Wr2 & Dl2 & Dr2 & N2 & J2 & F2).
    cbn [get nth_error bind] in HB. injection HB as <-. exists l2, r2.
    assert (D3 : degrees l2 = degrees s) by congruence. assert (D4 : degrees r2 = degrees s) by congruence.
    split; [reflexivity|]. split; [rewrite app_length; simpl; lia|]. split.
    { intros q Hq. apply in_app_or in Hq. destruct Hq as [Hq|[<-|[]]]; auto. }
    split; [auto|]. split; [auto|]. split; [rewrite app_nth1 by lia; exact N'|]. split.
    { rewrite app_nth2 by lia. replace (S i - 1 - length ou) with 0 by lia. exact J2. }
    split; [eapply far_trans; [|exact F2|exact F']; congruence|].
    intros j Hj. destruct (Nat.eq_dec (S j) i) as [Hje|Hne].
    + subst i. rewrite app_nth1, app_nth2 by lia. replace (S j - length ou) with 0 by lia.
      replace (length ou - 1) with j in J' by lia. destruct (HW (nth j ou s)) as (_ & Dj); [apply nth_In; lia|].
      cbn [nth]. apply (joined_near k _ r' _); auto; congruence.
    + rewrite !app_nth1 by lia. apply HJ. lia.
  - exists l, r. split; [reflexivity|]. split; [reflexivity|]. split; [intros q [<-|[]]; auto|].
    split; [auto|]. split; [auto|]. split; [exact N|]. split; [exact J|]. split; [exact F|]. lia.
Qed.
End Seam.
