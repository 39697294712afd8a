(** Differences of the control points under repeated subdivision and elevation. *)
From Coq Require Import Arith Lia List ZArith Bool Ring Field Reals Lra Psatz.
From Verif Require Import Prelude Scalar Spec SpecSpline Sums Coord ModelBasis ModelSpline ProofIndex ProofBasis ProofEval
  ProofElevate ProofMul ProofSplit ProofDerivSpline ProofCasteljau ProofRaw ClaimsA ClaimsC ClaimsD ClaimsN SpecNet ProofNet ProofNet2 ProofNet3.
Import ListNotations.
Local Open Scope R_scope.

Lemma slt_Rlt a b : slt a b <-> a < b.
Proof. unfold slt. cbn [sltb SOps_R]. destruct (Rlt_dec _ _); split; auto; discriminate. Qed.

Section Refine.
Context {V : Type} {ov : VOps R V} {M : VMod R V}.
Context (N : V -> R) (HN : sublinear N).

Lemma w1_ext (h h' : nat -> V) : (forall i, (i <= 1)%nat -> h i = h' i) -> w1 h = w1 h'.
Proof. intros H. unfold w1. rewrite !H by lia. reflexivity. Qed.
Lemma w2_ext (h h' : nat -> V) : (forall i, (i <= 2)%nat -> h i = h' i) -> w2 h = w2 h'.
Proof. intros H. unfold w2. rewrite !H by lia. reflexivity. Qed.

(** The differences of [q] are those of [s], times [h] in direction [k]. *)
Definition keeps (k : nat) (s q : spline V) (h : R) : Prop :=
  wf q /\ degrees q = degrees s /\ forall j D, (j < length (degrees s))%nat ->
    (steps_below N s j D -> steps_below N q j ((if (j =? k)%nat then h else 1) * D)) /\
    (bends_below N s j D -> bends_below N q j ((if (j =? k)%nat then h * h else 1) * D)).
Lemma keeps_refl k s : wf s -> keeps k s s 1.
Proof.
  intros Hw. split; [auto|]. split; [auto|]. intros j D Hj. destruct (j =? k)%nat; rewrite ?Rmult_1_l; auto.
Qed.
Lemma keeps_split k s q h x a b : keeps k s q h -> (k < length (degrees s))%nat -> 0 < x < 1 -> SplitAtPosition q x k = Ok [a; b] ->
  keeps k s a (x * h) /\ keeps k s b ((1 - x) * h).
Proof using HN M.
  intros (Wq & Dq & HQ) Hk Hx E. rewrite <- Dq in Hk.
  destruct (split_net q x k Wq Hk Hx) as (a' & b' & E' & Wa & Wb & Da & Db & _). rewrite E in E'. injection E' as <- <-.
  assert (Z : forall j D, (j < length (degrees s))%nat ->
    (steps_below N s j D -> steps_below N a j ((if (j =? k)%nat then x * h else 1) * D) /\ steps_below N b j ((if (j =? k)%nat then (1 - x) * h else 1) * D)) /\
    (bends_below N s j D -> bends_below N a j ((if (j =? k)%nat then x * h * (x * h) else 1) * D) /\
       bends_below N b j ((if (j =? k)%nat then (1 - x) * h * ((1 - x) * h) else 1) * D))).
  { intros j D Hj. destruct (HQ j D Hj) as (H1 & H2). rewrite <- Dq in Hj. destruct (Nat.eqb_spec j k) as [->|Hjk].
    - split; intros H.
      + destruct (split_same1 N HN q x k a b _ Wq Hk Hx E (H1 H)) as (X & Y). rewrite !Rmult_assoc. auto.
      + destruct (split_same2 N HN q x k a b _ Wq Hk Hx E (H2 H)) as (X & Y).
        replace (x * h * (x * h) * D) with (x * x * (h * h * D)) by ring.
        replace ((1 - x) * h * ((1 - x) * h) * D) with ((1 - x) * (1 - x) * (h * h * D)) by ring. auto.
    - split; intros H.
      + exact (split_other N HN w1 1 w1_ext dc_w1 q x k a b j _ Wq Hk Hj Hx Hjk E (H1 H)).
      + exact (split_other N HN w2 2 w2_ext dc_w2 q x k a b j _ Wq Hk Hj Hx Hjk E (H2 H)). }
  split; (split; [auto|]; split; [congruence|]); intros j D Hj; destruct (Z j D Hj) as (X & Y); split; intros H; [apply X in H|apply Y in H|apply X in H|apply Y in H]; apply H.
Qed.
Lemma keeps_planes k s planes parts : wf s -> (k < length (degrees s))%nat ->
  let bounds := 0 :: planes ++ [1] in
  (forall i, (S i < length bounds)%nat -> nth i bounds 0 < nth (S i) bounds 0) ->
  SplitAtPositions s planes k = Ok parts ->
  length parts = S (length planes) /\ forall i, (i <= length planes)%nat -> keeps k s (nth i parts s) (nth (S i) bounds 0 - nth i bounds 0).
Proof using HN M.
  intros Hw Hk bounds HB E.
  assert (HLb : length bounds = S (S (length planes))) by (unfold bounds; cbn; rewrite app_length; cbn; lia).
  assert (Hnth : forall i, (i < length planes)%nat -> nth (S i) bounds 0 = nth i planes 0) by (intros i Hi; unfold bounds; cbn [nth]; rewrite app_nth1; auto).
  assert (Hlast : nth (S (length planes)) bounds 0 = 1) by (unfold bounds; cbn [nth]; rewrite app_nth2, Nat.sub_diag by lia; reflexivity).
  assert (H1 : forall j i, (i + j + 1 = length planes)%nat -> nth i planes 0 < 1).
  { induction j; intros i Hi.
    - rewrite <- Hnth, <- Hlast by lia. replace (length planes) with (S i) by lia. apply HB. lia.
    - eapply Rlt_trans; [|apply (IHj (S i)); lia]. rewrite <- !Hnth by lia. apply HB. lia. }
  unfold SplitAtPositions in E. destruct (is_sorted planes); [|discriminate]. cbn [negb] in E.
  destruct (Nat.eqb_spec (length planes) 0) as [E0|E0].
  { injection E as <-. rewrite E0. split; [reflexivity|]. intros i Hi. replace i with 0%nat by lia.
    rewrite E0 in Hlast. rewrite Hlast. unfold bounds. cbn [nth]. rewrite Rminus_0_r. apply keeps_refl; auto. }
  rewrite (get_ok s0) in E by lia. cbn [bind] in E. apply bind_ok in E. destruct E as (sp & E1 & E).
  assert (HX : 0 < nth 0 planes 0 < 1).
  { split; [rewrite <- Hnth by lia; apply (HB 0%nat); lia|apply (H1 (length planes - 1)%nat); lia]. }
  destruct (split_net s _ k Hw Hk HX) as (l & r & E' & _). cbn [s0 SOps_R] in E1. change R0 with 0 in E1. rewrite E' in E1. injection E1 as <-.
  destruct (keeps_split k s s 1 _ l r (keeps_refl k s Hw) Hk HX E') as (Kl & Kr). rewrite Rmult_1_r in Kl, Kr.
  cbn [get nth_error bind] in E. apply bind_ok in E. destruct E as ([out sp] & E2 & E).
  eapply (for_up_pci (fun i (st : list (spline V) * list (spline V)) => let '(out, sp) := st in
    exists l r, sp = [l; r] /\ length out = i /\ keeps k s r (1 - nth (i - 1) planes 0) /\
      forall j, (j < i)%nat -> keeps k s (nth j out s) (nth (S j) bounds 0 - nth j bounds 0))) in E2.
  - destruct E2 as (l' & r' & -> & HLo & Kr' & HJ). cbn [get nth_error bind] in E. injection E as <-.
    replace (1 + (length planes - 1))%nat with (length planes) in * by lia.
    split; [rewrite app_length; simpl; lia|]. intros i Hi. destruct (Nat.eq_dec i (length planes)) as [->|Hne].
    + rewrite app_nth2 by lia. rewrite HLo, Nat.sub_diag, Hlast. cbn [nth].
      replace (nth (length planes) bounds 0) with (nth (length planes - 1) planes 0); [exact Kr'|].
      rewrite <- Hnth by lia. f_equal. lia.
    + rewrite app_nth1 by lia. apply HJ. lia.
  - intros i [ou sp'] y Hi HI HBd. destruct HI as (l' & r' & -> & HLo & Kr' & HJ).
    rewrite !(get_ok s0) in HBd by lia. cbn [bind] in HBd. apply bind_ok in HBd. destruct HBd as (rel & Erel & HBd). cbn [get nth_error bind] in HBd.
    apply bind_ok in HBd. destruct HBd as (sp2 & E3 & HBd). cbn [s0 s1 ssub SOps_R] in Erel. change R0 with 0 in Erel. change R1 with 1 in Erel.
    assert (L1 : nth (i - 1) planes 0 < nth i planes 0).
    { rewrite <- !Hnth by lia. replace (S (i - 1)) with i by lia. apply HB. lia. }
    assert (L2 : nth i planes 0 < 1) by (apply (H1 (length planes - 1 - i)%nat); lia).
    unfold divS in Erel. destruct (seqb _ _); [discriminate|]. injection Erel as <-. cbn [sdiv SOps_R] in E3.
    set (pi := nth i planes 0) in *. set (pm := nth (i - 1) planes 0) in *.
    assert (HR : 0 < (pi - pm) / (1 - pm) < 1).
    { split; [apply Rdiv_lt_0_compat; lra|]. apply (Rmult_lt_reg_r (1 - pm)); [lra|]. unfold Rdiv. rewrite Rmult_assoc, Rinv_l by lra. lra. }
    assert (Wr' := proj1 Kr'). assert (Dr' := proj1 (proj2 Kr')).
    destruct (split_net r' _ k Wr' ltac:(rewrite Dr'; exact Hk) HR) as (l2 & r2 & E4 & _). rewrite E4 in E3. injection E3 as <-.
    destruct (keeps_split k s r' _ _ l2 r2 Kr' Hk HR E4) as (Kl2 & Kr2).
    replace ((pi - pm) / (1 - pm) * (1 - pm)) with (pi - pm) in Kl2 by (field; lra).
    replace ((1 - (pi - pm) / (1 - pm)) * (1 - pm)) with (1 - pi) in Kr2 by (field; lra).
    cbn [get nth_error bind] in HBd. injection HBd as <-. exists l2, r2. split; [reflexivity|]. split; [rewrite app_length; simpl; lia|].
    split; [replace (S i - 1)%nat with i by lia; exact Kr2|].
    intros j Hj. destruct (Nat.eq_dec j i) as [->|Hne].
    + rewrite app_nth2 by lia. rewrite HLo, Nat.sub_diag. cbn [nth]. rewrite Hnth by lia.
      replace (nth i bounds 0) with pm; [exact Kl2|]. unfold pm. rewrite <- Hnth by lia. f_equal. lia.
    + rewrite app_nth1 by lia. apply HJ. lia.
  - exists l, r. split; [reflexivity|]. split; [reflexivity|]. split; [exact Kr|]. intros j Hj. replace j with 0%nat by lia.
    rewrite Hnth by lia. unfold bounds. cbn [nth]. rewrite Rminus_0_r. exact Kl.
Qed.

(** Repeated halving. *)
Definition times (ks : list nat) (k : nat) : nat := count_occ Nat.eq_dec ks k.
Lemma halved_keeps ks s r : halved ks s r -> wf s -> Forall (fun k => (k < length (degrees s))%nat) ks ->
  wf r /\ degrees r = degrees s /\ forall j D, (j < length (degrees s))%nat ->
    (steps_below N s j D -> steps_below N r j (D / 2 ^ times ks j)) /\ (bends_below N s j D -> bends_below N r j (D / 4 ^ times ks j)).
Proof using HN M.
  induction 1 as [s|k ks s a b q r E Hq _ IH]; intros Hw HK.
  - split; [auto|]. split; [auto|]. intros j D Hj. unfold times. cbn [count_occ pow]. unfold Rdiv. rewrite Rinv_1, Rmult_1_r. auto.
  - inversion HK as [|? ? Hk HK']; subst.
    destruct (keeps_split k s s 1 (1 / 2) a b (keeps_refl k s Hw) Hk ltac:(lra) E) as (Ka & Kb). rewrite Rmult_1_r in Ka, Kb.
    replace (1 - 1 / 2) with (1 / 2) in Kb by lra.
    assert (Kq : keeps k s q (1 / 2)) by (destruct Hq; subst q; auto). clear Ka Kb Hq E. destruct Kq as (Wq & Dq & HQ).
    destruct (IH Wq) as (Wr & Dr & HR); [rewrite Dq; exact HK'|]. split; [auto|]. split; [congruence|]. intros j D Hj. rewrite Dq in HR.
    destruct (HQ j D Hj) as (S1 & B1).
    assert (P2 : 2 ^ times ks j <> 0) by (apply pow_nonzero; lra). assert (P4 : 4 ^ times ks j <> 0) by (apply pow_nonzero; lra).
    unfold times in *. cbn [count_occ]. destruct (Nat.eq_dec k j) as [->|Hne].
    + rewrite Nat.eqb_refl in S1, B1. split; intros H.
      * apply S1 in H. apply (proj1 (HR j _ Hj)) in H. cbn [pow].
        replace (D / (2 * 2 ^ count_occ Nat.eq_dec ks j)) with (1 / 2 * D / 2 ^ count_occ Nat.eq_dec ks j) by (field; auto). exact H.
      * apply B1 in H. apply (proj2 (HR j _ Hj)) in H. cbn [pow].
        replace (D / (4 * 4 ^ count_occ Nat.eq_dec ks j)) with (1 / 2 * (1 / 2) * D / 4 ^ count_occ Nat.eq_dec ks j) by (field; auto). exact H.
    + destruct (Nat.eqb_spec j k) as [->|_]; [congruence|]. rewrite Rmult_1_l in S1, B1. split; intros H; [apply S1 in H; exact (proj1 (HR j _ Hj) H)|apply B1 in H; exact (proj2 (HR j _ Hj) H)].
Qed.

(** Elevation. *)
Lemma elevate_keeps (s e : spline V) k : wf s -> (k < length (degrees s))%nat ->
  (Z.of_nat (n_coeffs (upd_list (degrees s) k (nth k (degrees s) 0 + 1)%nat)) < 2 ^ 31)%Z -> OrderElevate (T := R) s k = Ok e ->
  let p := nth k (degrees s) 0%nat in forall j D, (j < length (degrees s))%nat ->
    (steps_below N s j D -> steps_below N e j ((if (j =? k)%nat then INR p / INR (p + 1) else 1) * D)) /\
    (bends_below N s j D -> bends_below N e j ((if (j =? k)%nat then INR (p - 1) / INR (p + 1) else 1) * D)).
Proof using HN M.
  intros Hw Hk Hz E p j D Hj. destruct (Nat.eqb_spec j k) as [->|Hjk].
  - split; intros H; [exact (elevate_same1 N HN s e k D Hw Hk Hz E H)|].
    destruct (Nat.eq_dec p 0) as [Ep|Ep].
    + intros idx HV Hc. destruct (elevate_net s k Hw Hk Hz) as (e' & E' & _ & De & _). rewrite E in E'. injection E' as <-.
      rewrite De, nth_upd_same in Hc by auto. fold p in Hc. lia.
    + exact (elevate_same2 N HN s e k D Hw Hk ltac:(fold p; lia) Hz E H).
  - rewrite Rmult_1_l. split; intros H.
    + exact (elevate_other N HN w1 1 w1_ext relev_w1 s k e j D Hw Hk Hj Hjk Hz E H).
    + exact (elevate_other N HN w2 2 w2_ext relev_w2 s k e j D Hw Hk Hj Hjk Hz E H).
Qed.
Lemma n_coeffs_upd_le degs k a b : (a <= b)%nat -> (k < length degs)%nat -> (n_coeffs (upd_list degs k a) <= n_coeffs (upd_list degs k b))%nat.
Proof. intros H Hk. rewrite !(upd_split' _ _ _ Hk), !n_coeffs_app, !n_coeffs_cons. apply Nat.mul_le_mono_l, Nat.mul_le_mono_r. lia. Qed.
Lemma upd_twice {A} (l : list A) k a b : upd_list (upd_list l k a) k b = upd_list l k b.
Proof. revert k; induction l; intros [|k]; cbn; auto. f_equal. auto. Qed.
Lemma elevated_ok k n : forall s, wf s -> (k < length (degrees s))%nat ->
  (Z.of_nat (n_coeffs (upd_list (degrees s) k (nth k (degrees s) 0 + n)%nat)) < 2 ^ 31)%Z -> exists r, elevated (V := V) k n s r.
Proof using M.
  induction n; intros s Hw Hk Hz; [exists s; constructor|].
  assert (Hz1 : (Z.of_nat (n_coeffs (upd_list (degrees s) k (nth k (degrees s) 0 + 1)%nat)) < 2 ^ 31)%Z).
  { pose proof (n_coeffs_upd_le (degrees s) k (nth k (degrees s) 0 + 1)%nat (nth k (degrees s) 0 + S n)%nat ltac:(lia) Hk). lia. }
  destruct (elevate_net s k Hw Hk Hz1) as (e & E & We & De & _). destruct (IHn e We) as (r & Hr).
  - rewrite De, length_upd. exact Hk.
  - rewrite De, upd_twice, nth_upd_same by auto. replace (nth k (degrees s) 0 + 1 + n)%nat with (nth k (degrees s) 0 + S n)%nat by lia. exact Hz.
  - exists r. econstructor; eauto.
Qed.
Lemma elevated_keeps k n s r : elevated (V := V) k n s r -> wf s -> (k < length (degrees s))%nat ->
  (Z.of_nat (n_coeffs (upd_list (degrees s) k (nth k (degrees s) 0 + n)%nat)) < 2 ^ 31)%Z ->
  let p := nth k (degrees s) 0%nat in
  wf r /\ degrees r = upd_list (degrees s) k (p + n)%nat /\
  (forall xs, length xs = length (degrees s) -> Evaluate r xs = Evaluate s xs) /\
  forall j D, (j < length (degrees s))%nat ->
    (steps_below N s j D -> steps_below N r j ((if (j =? k)%nat then INR p / INR (p + n) else 1) * D)) /\
    (bends_below N s j D -> bends_below N r j ((if (j =? k)%nat then INR p * INR (p - 1) / (INR (p + n) * INR (p + n - 1)) else 1) * D)).
Proof using HN M.
  induction 1 as [s|n s q r E _ IH]; intros Hw Hk Hz p.
  - split; [auto|]. split; [rewrite Nat.add_0_r; unfold p; rewrite upd_list_same; auto|]. split; [auto|]. rewrite !Nat.add_0_r.
    intros j D Hj. destruct (Nat.eqb_spec j k) as [->|Hjk]; [|rewrite Rmult_1_l; auto]. split; intros H.
    + destruct (Nat.eq_dec p 0) as [Ep|Ep]; [intros idx _ Hc; fold p in Hc; lia|].
      replace (INR p / INR p * D) with D by (field; apply not_0_INR; auto). exact H.
    + destruct (le_lt_dec p 1) as [Ep|Ep]; [intros idx _ Hc; fold p in Hc; lia|].
      replace (INR p * INR (p - 1) / (INR p * INR (p - 1)) * D) with D by (field; split; apply not_0_INR; lia). exact H.
  - assert (Hz1 : (Z.of_nat (n_coeffs (upd_list (degrees s) k (nth k (degrees s) 0 + 1)%nat)) < 2 ^ 31)%Z).
    { pose proof (n_coeffs_upd_le (degrees s) k (nth k (degrees s) 0 + 1)%nat (nth k (degrees s) 0 + S n)%nat ltac:(lia) Hk). lia. }
    destruct (elevate_net s k Hw Hk Hz1) as (e & E' & We & De & _). rewrite E in E'. injection E' as <-.
    pose proof (elevate_keeps s q k Hw Hk Hz1 E) as HE. fold p in HE, De, Hz.
    assert (HV : forall xs, length xs = length (degrees s) -> Evaluate q xs = Evaluate s xs).
    { destruct (c13_order_elevate R V _ _ _ _ s k Hw Hk) as (e & E' & _ & _ & HV).
      - rewrite (upd_at_upd 0%nat) by auto. rewrite <- Nat.add_1_r. exact Hz1.
      - rewrite E in E'. injection E' as <-. intros xs HX. apply HV; auto. }
    assert (Dk : nth k (degrees q) 0%nat = (p + 1)%nat) by (rewrite De; apply nth_upd_same; auto).
    assert (DL : length (degrees q) = length (degrees s)) by (rewrite De; apply length_upd).
    destruct IH as (Wr & Dr & HVr & HR); [auto|rewrite DL; auto|rewrite Dk, De, upd_twice; replace (p + 1 + n)%nat with (p + S n)%nat by lia; exact Hz|].
    rewrite Dk in Dr, HR. rewrite De, upd_twice in Dr. replace (p + 1 + n)%nat with (p + S n)%nat in * by lia. rewrite DL in HVr, HR.
    split; [auto|]. split; [auto|]. split; [intros xs HX; rewrite HVr, HV; auto|].
    intros j D Hj. destruct (HE j D Hj) as (S1 & B1). destruct (Nat.eqb_spec j k) as [->|Hjk].
    + split; intros H.
      * apply S1 in H. apply (proj1 (HR k _ Hj)) in H. rewrite Nat.eqb_refl in H.
        replace (INR p / INR (p + S n) * D) with (INR (p + 1) / INR (p + S n) * (INR p / INR (p + 1) * D)); [exact H|].
        field. split; apply not_0_INR; lia.
      * apply B1 in H. apply (proj2 (HR k _ Hj)) in H. rewrite Nat.eqb_refl in H. replace (p + 1 - 1)%nat with p in H by lia.
        replace (INR p * INR (p - 1) / (INR (p + S n) * INR (p + S n - 1)) * D) with
          (INR (p + 1) * INR p / (INR (p + S n) * INR (p + S n - 1)) * (INR (p - 1) / INR (p + 1) * D)); [exact H|].
        destruct (Nat.eq_dec p 0) as [->|Ep]; [simpl (INR 0); unfold Rdiv; ring|]. field. repeat split; apply not_0_INR; lia.
    + rewrite Rmult_1_l in S1, B1. assert (HR' := HR j D Hj). destruct (Nat.eqb_spec j k) as [|_]; [congruence|].
      destruct HR' as (R1 & R2). split; auto.
Qed.
End Refine.
