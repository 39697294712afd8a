(** Claim C02: structural consistency along histories. *)
From Coq Require Import Arith Lia List ZArith NArith Bool.
From Verif Require Import Prelude Scalar Spec SpecSpline ModelBasis ModelSpline ModelPoint ModelRational SpecRational SpecHistory
  ProofIndex ProofEval.
Import ListNotations.

(** ** What is known about a call that returned *)
Ltac inv_ok :=
  repeat match goal with
  | H : bind _ _ = Ok _ |- _ => apply bind_ok in H; destruct H as (? & ? & H)
  | H : (let '(_, _) := ?p in _) = Ok _ |- _ => destruct p
  | H : (if ?b then _ else _) = Ok _ |- _ => destruct b; try discriminate
  | H : Ok _ = Ok _ |- _ => injection H as H; try subst
  end.

Lemma set_length_inv {A} (l : list A) i x l' : set l i x = Ok l' -> length l' = length l.
Proof. unfold set. destruct (i <? length l); [|discriminate]. injection 1 as <-. apply length_upd. Qed.

Lemma for_up_pc {A} (P : A -> Prop) n body : (forall i x y, P x -> body i x = Ok y -> P y) ->
  forall lo a r, P a -> for_up lo n body a = Ok r -> P r.
Proof.
  intros HB. induction n as [|n IH]; simpl; intros lo a r Ha H; [injection H as <-; auto|].
  inv_ok. eapply IH; [|exact H]. eapply HB; eauto.
Qed.
Lemma for_up_pci {A} (P : nat -> A -> Prop) n body lo : (forall i x y, lo <= i < lo + n -> P i x -> body i x = Ok y -> P (S i) y) ->
  forall a r, P lo a -> for_up lo n body a = Ok r -> P (lo + n) r.
Proof.
  revert lo. induction n as [|n IH]; simpl; intros lo HB a r Ha H; [injection H as <-; now rewrite Nat.add_0_r|].
  inv_ok. replace (lo + S n) with (S lo + n) by lia. eapply IH; [|eapply HB; [|exact Ha|eassumption]; lia|exact H].
  intros i y z Hi. apply HB. lia.
Qed.
Lemma for_down_pc {A} (P : A -> Prop) n body : (forall i x y, P x -> body i x = Ok y -> P y) ->
  forall a r, P a -> for_down n body a = Ok r -> P r.
Proof.
  intros HB. induction n as [|n IH]; simpl; intros a r Ha H; [injection H as <-; auto|].
  inv_ok. eapply IH; [|exact H]. eapply HB; eauto.
Qed.
Lemma while_pc {A} (P : A -> Prop) cond body : (forall x y, P x -> body x = Ok y -> P y) ->
  forall fuel a r, P a -> while_ fuel cond body a = Ok r -> P r.
Proof.
  intros HB. induction fuel as [|f IH]; simpl; intros a r Ha H; [discriminate|]. destruct (cond a).
  - inv_ok. eapply IH; [|exact H]. eapply HB; eauto.
  - injection H as <-. auto.
Qed.

(** ** Polynomial splines *)
Section Poly.
Context {T V : Type} {o : SOps T} {ov : VOps T V}.

Lemma wf_cps (s : spline V) c : wf s -> length c = length (control_points s) -> wf (with_cps s c).
Proof. intros (H1 & H2 & H3 & H4) H. unfold wf. simpl. rewrite H. auto. Qed.
Lemma wf_shape (s s' : spline V) : wf s -> degrees s' = degrees s -> number_of_control_points s' = number_of_control_points s ->
  index_offsets s' = index_offsets s -> length (control_points s') = length (control_points s) -> wf s'.
Proof. intros (H1 & H2 & H3 & H4) E1 E2 E3 E4. unfold wf. rewrite E1, E2, E3, E4. auto. Qed.

Lemma Spline_deg_wf deg (s : spline V) : Spline_deg deg = Ok s -> wf s /\ degrees s = deg.
Proof.
  destruct deg as [|p deg].
  - unfold Spline_deg. rewrite count_points_ok. cbn [bind]. rewrite UpdateIndexOffsets_nil. discriminate.
  - rewrite Spline_deg_ok by discriminate. injection 1 as <-. split; [|reflexivity]. apply wf_mk; [discriminate|apply repeat_length].
Qed.
Lemma Spline_deg_points_wf deg pts (s : spline V) : Spline_deg_points deg pts = Ok s -> wf s /\ degrees s = deg.
Proof. intros H. apply Spline_deg_points_inv in H. destruct H as (H1 & H2 & ->). split; [|reflexivity]. apply wf_mk; auto. Qed.
Lemma UpdateDegrees_wf (s0 : spline V) deg s : UpdateDegrees s0 deg = Ok s -> wf s /\ degrees s = deg.
Proof.
  destruct deg as [|p deg].
  - unfold UpdateDegrees. rewrite count_points_ok. cbn [bind]. rewrite UpdateIndexOffsets_nil. discriminate.
  - rewrite UpdateDegrees_ok by discriminate. injection 1 as <-. split; [|reflexivity]. apply wf_mk; [discriminate|apply length_resize].
Qed.
Lemma SetControlPoint_wf (s : spline V) idx v s' : wf s -> SetControlPoint s idx v = Ok s' -> wf s' /\ degrees s' = degrees s.
Proof. intros Hw H. unfold SetControlPoint in H. inv_ok. split; [|reflexivity]. apply wf_cps; auto. eapply set_length_inv; eauto. Qed.
Lemma SetControlPoint_variadic_wf (s : spline V) idx v s' : wf s -> SetControlPoint_variadic s idx v = Ok s' -> wf s'.
Proof. intros Hw H. unfold SetControlPoint_variadic in H. inv_ok. apply wf_cps; auto. eapply set_length_inv; eauto. Qed.

Lemma n_coeffs_elevate degs k p : nth_error degs k = Some p ->
  n_coeffs (upd_list degs k (p + 1)) = n_coeffs degs / (p + 1) * (p + 2).
Proof.
  revert k. induction degs as [|q degs IH]; intros [|k] H; simpl in H; try discriminate.
  - injection H as ->. simpl upd_list. rewrite !n_coeffs_cons. replace (S p) with (p + 1) by lia.
    rewrite (Nat.mul_comm (p + 1)), Nat.div_mul by lia. lia.
  - simpl upd_list. rewrite !n_coeffs_cons, IH by auto.
    assert (HD : exists m, n_coeffs degs = m * (p + 1)).
    { clear IH. revert k H. induction degs as [|r degs IH]; intros [|k] H; simpl in H; try discriminate.
      - injection H as ->. exists (n_coeffs degs). rewrite n_coeffs_cons. lia.
      - destruct (IH k H) as (m & E). exists (S r * m). rewrite n_coeffs_cons, E. lia. }
    destruct HD as (m & ->). rewrite Nat.div_mul by lia. replace (S q * (m * (p + 1))) with (S q * m * (p + 1)) by lia.
    rewrite Nat.div_mul by lia. lia.
Qed.

Lemma OrderElevate_wf (s : spline V) k s' : wf s -> OrderElevate s k = Ok s' -> wf s'.
Proof.
  intros Hw H. pose proof Hw as (H1 & H2 & H3 & H4). unfold OrderElevate in H.
  apply bind_ok in H. destruct H as (p & Ep & H). apply bind_ok in H. destruct H as (off & Eo & H). cbv zeta in H.
  apply bind_ok in H. destruct H as ([] & _ & H). apply bind_ok in H. destruct H as (degs' & Ed & H).
  apply bind_ok in H. destruct H as (inv & _ & H). apply bind_ok in H. destruct H as ((cps & gi) & EL & H).
  apply bind_ok in H. destruct H as (offs' & Eoff & H). injection H as <-.
  unfold get in Ep. destruct (nth_error (degrees s) k) eqn:En; [|discriminate]. injection Ep as ->.
  unfold set in Ed. destruct (k <? length (degrees s)) eqn:Ek; [|discriminate]. injection Ed as <-.
  assert (Hne : upd_list (degrees s) k (p + 1) <> []) by (intros E; apply H1; apply length_zero_iff_nil; rewrite <- (length_upd _ k (p + 1)), E; reflexivity).
  rewrite UpdateIndexOffsets_ok in Eoff by auto. injection Eoff as <-.
  unfold wf. cbn [degrees number_of_control_points index_offsets control_points].
  rewrite H2, (n_coeffs_elevate _ _ _ En). split; auto. split; auto. split; auto.
  set (n' := n_coeffs (degrees s) / (p + 1) * (p + 2)) in *. rewrite H2 in EL. fold n' in EL.
  assert (HS : forall n body, (forall i (x : list V * Z) y, body i x = Ok y -> length (fst y) = length (fst x)) ->
    forall x y, for_down n body x = Ok y -> length (fst y) = length (fst x)).
  { intros n body HB x y E. refine (for_down_pc (fun y => length (fst y) = length (fst x)) n body _ x y eq_refl E).
    intros i a b Ha Hb. rewrite <- Ha. eapply HB; eauto. }
  apply HS in EL.
  - simpl in EL. rewrite EL. apply length_resize.
  - intros i x y E.
    apply bind_ok in E. destruct E as (x1 & E1 & E). apply bind_ok in E. destruct E as (x2 & E2 & E).
    apply HS in E; [apply HS in E1; [apply HS in E2; [congruence|]|]|].
    + intros j a b Eb. apply HS in Eb; auto. intros l (c & g) (c' & g') Ec. inv_ok. simpl. eapply set_length_inv; eauto.
    + intros l (c & g) (c' & g') Ec. inv_ok. simpl. eapply set_length_inv; eauto.
    + intros l (c & g) (c' & g') Ec. inv_ok. simpl. eapply set_length_inv; eauto.
Qed.

Lemma DerivativeWRT_wf MAXB (s : spline V) orders s' : DerivativeWRT MAXB s orders = Ok s' -> wf s'.
Proof.
  intros H. unfold DerivativeWRT in H. apply bind_ok in H. destruct H as ((nd & cps) & _ & H).
  apply bind_ok in H. destruct H as (d & Ed & H). apply bind_ok in H. destruct H as (dc & El & H). injection H as <-.
  apply Spline_deg_wf in Ed. destruct Ed as (Hw & _). apply wf_cps; auto.
  refine (for_up_pc (fun c => length c = length (control_points d)) _ _ _ _ _ _ eq_refl El).
  intros i x y Hx Hy. inv_ok. rewrite <- Hx. eapply set_length_inv; eauto.
Qed.

Lemma Split_wf (s : spline V) plane k l : wf s -> SplitAtPosition s plane k = Ok l ->
  exists a b, l = [a; b] /\ wf a /\ wf b /\ degrees a = degrees s /\ degrees b = degrees s.
Proof.
  intros Hw H. unfold SplitAtPosition in H. destruct (negb _); [discriminate|].
  apply bind_ok in H. destruct H as (p & _ & H). apply bind_ok in H. destruct H as (off & _ & H). cbv zeta in H.
  apply bind_ok in H. destruct H as ((c1 & c2) & El & H). injection H as <-.
  assert (HL : length c1 = length (control_points s) /\ length c2 = length (control_points s)).
  { refine (for_up_pc (fun st : list V * list V => length (fst st) = length (control_points s) /\ length (snd st) = length (control_points s))
      _ _ _ _ (control_points s, control_points s) _ (conj eq_refl eq_refl) El).
    intros i x y Hx Hy. refine (for_up_pc (fun st : list V * list V => length (fst st) = length (control_points s) /\ length (snd st) = length (control_points s))
      _ _ _ _ _ _ Hx Hy).
    intros j (a & b) (a' & b') (Ha & Hb) Hj. apply bind_ok in Hj. destruct Hj as (a2 & Ea & Hj). inv_ok. simpl in *. split.
    - refine (for_down_pc (fun c => length c = length (control_points s)) _ _ _ _ _ Ha Ea).
      intros ? u v Hu Hv. inv_ok. rewrite <- Hu. eapply set_length_inv; eauto.
    - rewrite <- Hb. eapply set_length_inv; eauto. }
  do 2 eexists. split; [reflexivity|]. repeat split; try apply Hw; simpl; destruct HL; try rewrite H; try rewrite H0; apply Hw.
Qed.

Lemma Splits_wf (s : spline V) planes k l : wf s -> SplitAtPositions s planes k = Ok l ->
  Forall (fun x => wf x /\ degrees x = degrees s) l.
Proof.
  intros Hw H. unfold SplitAtPositions in H. destruct (negb _); [discriminate|].
  destruct (length planes =? 0); [injection H as <-; repeat constructor; auto; apply Hw|].
  apply bind_ok in H. destruct H as (p0 & _ & H). apply bind_ok in H. destruct H as (sp & Es & H).
  apply Split_wf in Es; auto. destruct Es as (a & b & -> & Ha & Hb & Da & Db). cbn [get nth_error bind] in H.
  apply bind_ok in H. destruct H as ((out & sp) & El & H).
  set (ok := fun x : spline V => wf x /\ degrees x = degrees s).
  assert (HI : Forall ok out /\ Forall ok sp).
  { refine (for_up_pc (fun st : list (spline V) * list (spline V) => Forall ok (fst st) /\ Forall ok (snd st)) _ _ _ _ _ _ _ El).
    - intros i (x1 & x2) (y1 & y2) (Hx1 & Hx2) Hy. simpl in *. apply bind_ok in Hy. destruct Hy as (pi & _ & Hy).
      apply bind_ok in Hy. destruct Hy as (pm & _ & Hy). apply bind_ok in Hy. destruct Hy as (rel & _ & Hy).
      apply bind_ok in Hy. destruct Hy as (rest & Er & Hy). apply bind_ok in Hy. destruct Hy as (sp' & Es & Hy).
      assert (Hr : ok rest).
      { unfold get in Er. destruct (nth_error x2 1) eqn:En; [|discriminate]. injection Er as <-.
        rewrite Forall_forall in Hx2. apply Hx2. eapply nth_error_In; eauto. }
      destruct Hr as (Hr1 & Hr2). apply Split_wf in Es; auto. destruct Es as (a' & b' & -> & Ha' & Hb' & Da' & Db').
      cbn [get nth_error bind] in Hy. injection Hy as <- <-.
      assert (ok a') by (split; auto; congruence). assert (ok b') by (split; auto; congruence).
      split; [apply Forall_app; split|]; auto.
    - assert (ok a) by (split; auto). assert (ok b) by (split; auto). split; simpl; auto. }
  apply bind_ok in H. destruct H as (x & Ex & H). injection H as <-. apply Forall_app. split; [apply HI|].
  constructor; [|constructor]. unfold get in Ex. destruct (nth_error sp 1) eqn:En; [|discriminate]. injection Ex as <-.
  destruct HI as (_ & HI). rewrite Forall_forall in HI. apply HI. eapply nth_error_In; eauto.
Qed.

Lemma map_points_wf f (s : spline V) s' : wf s -> map_points f s = Ok s' -> wf s' /\ degrees s' = degrees s.
Proof.
  intros Hw H. unfold map_points in H. apply bind_ok in H. destruct H as (c & El & H). injection H as <-.
  split; [|reflexivity]. apply wf_cps; auto.
  refine (for_up_pc (fun c => length c = length (control_points s)) _ _ _ _ _ _ eq_refl El).
  intros i x y Hx Hy. inv_ok. rewrite <- Hx. eapply set_length_inv; eauto.
Qed.
Lemma self_wf op k (s : spline V) s' : wf s -> map_points_self op k s = Ok s' -> wf s'.
Proof.
  intros Hw H. unfold map_points_self in H. apply bind_ok in H. destruct H as (c & El & H). injection H as <-.
  apply wf_cps; auto.
  refine (for_up_pc (fun c => length c = length (control_points s)) _ _ _ _ _ _ eq_refl El).
  intros i x y Hx Hy. inv_ok. rewrite <- Hx. eapply set_length_inv; eauto.
Qed.
Lemma neg_wf (s : spline V) s' : wf s -> spline_neg s = Ok s' -> wf s' /\ degrees s' = degrees s.
Proof.
  intros Hw H. unfold spline_neg in H. apply bind_ok in H. destruct H as (c & El & H). injection H as <-.
  split; [|reflexivity]. apply wf_cps; auto.
  refine (for_up_pc (fun c => length c = length (control_points s)) _ _ _ _ _ _ eq_refl El).
  intros i x y Hx Hy. inv_ok. rewrite <- Hx. eapply set_length_inv; eauto.
Qed.
Lemma point_minus_wf (s : spline V) p s' : wf s -> point_minus_spline p s = Ok s' -> wf s' /\ degrees s' = degrees s.
Proof.
  intros Hw H. unfold point_minus_spline in H. apply bind_ok in H. destruct H as (t & Et & H).
  apply map_points_wf in Et; auto. destruct Et as (Hw' & D). apply neg_wf in H; auto. rewrite <- D. auto.
Qed.
Lemma combine_wf op n (x rhs s' : spline V) : wf x -> combine_assign op n x rhs = Ok s' -> wf s' /\ degrees s' = degrees x.
Proof.
  intros Hw H. unfold combine_assign in H. apply bind_ok in H. destruct H as (c & El & H). injection H as <-.
  split; [|reflexivity]. apply wf_cps; auto.
  refine (for_up_pc (fun c => length c = length (control_points x)) _ _ _ _ _ _ eq_refl El).
  intros i a y Hx Hy. inv_ok. rewrite <- Hx. eapply set_length_inv; eauto.
Qed.
Lemma elevate_all_wf fuel targets (x s' : spline V) : wf x -> elevate_all fuel targets x = Ok s' -> wf s'.
Proof.
  intros Hw H. unfold elevate_all in H. refine (for_up_pc wf _ _ _ _ _ _ Hw H).
  intros i a b Ha Hb. apply bind_ok in Hb. destruct Hb as (t & _ & Hb). unfold elevate_to in Hb.
  refine (while_pc wf _ _ _ _ _ _ Ha Hb). intros. eapply OrderElevate_wf; eauto.
Qed.
Lemma add_wf fuel (s t s' : spline V) : wf s -> wf t -> spline_add fuel s t = Ok s' -> wf s'.
Proof.
  unfold spline_add. generalize fuel at 1. intros depth. revert s t. induction depth as [|depth IH]; intros s t Hs Ht H; [discriminate|].
  cbn [spline_add_rec] in H.
  apply bind_ok in H. destruct H as (r & Er & H). apply bind_ok in H. destruct H as (b & _ & H).
  apply bind_ok in H. destruct H as (r' & Er' & H). apply Spline_deg_points_wf in Er. destruct Er as (Hr & _).
  apply elevate_all_wf in Er'; auto. destruct (negb b); [eapply combine_wf; eauto|]. exact (IH _ _ Ht Er' H).
Qed.
Lemma add_assign_wf fuel (s t s' : spline V) : wf s -> wf t -> spline_add_assign fuel s t = Ok s' -> wf s'.
Proof.
  intros Hs Ht H. unfold spline_add_assign in H. apply bind_ok in H. destruct H as (r & Er & H).
  apply bind_ok in H. destruct H as (b & _ & H). apply elevate_all_wf in Er; auto. eapply combine_wf; eauto.
Qed.
Lemma sub_assign_wf fuel (s t s' : spline V) : wf s -> wf t -> spline_sub_assign fuel s t = Ok s' -> wf s'.
Proof.
  intros Hs Ht H. unfold spline_sub_assign in H. apply bind_ok in H. destruct H as (r & Er & H).
  apply bind_ok in H. destruct H as (b & _ & H). apply elevate_all_wf in Er; auto. eapply combine_wf; eauto.
Qed.
Lemma sub_wf fuel (s t s' : spline V) : spline_sub fuel s t = Ok s' -> wf s'.
Proof.
  intros H. unfold spline_sub in H.
  apply bind_ok in H. destruct H as (r & Er & H). apply Spline_deg_points_wf in Er. destruct Er as (Hr & _).
  apply bind_ok in H. destruct H as (r' & Er' & H). apply bind_ok in H. destruct H as (b & _ & H).
  eapply combine_wf; [|exact H]. refine (for_up_pc wf _ _ _ _ _ _ Hr Er').
  intros i x y Hx Hy. apply bind_ok in Hy. destruct Hy as (q & _ & Hy). apply bind_ok in Hy. destruct Hy as (p & _ & Hy).
  refine (while_pc wf _ _ _ _ _ _ Hx Hy). intros. eapply OrderElevate_wf; eauto.
Qed.
End Poly.

Lemma mul_wf MAXB {T V1 V2 V3} {o : SOps T} {o3 : VOps T V3} (pmul : V1 -> V2 -> V3) (s : spline V1) (t : spline V2) s' :
  spline_mul MAXB pmul s t = Ok s' -> wf s'.
Proof.
  intros H. unfold spline_mul in H. apply bind_ok in H. destruct H as (pd & _ & H). apply bind_ok in H. destruct H as (r & Er & H).
  apply Spline_deg_wf in Er. destruct Er as (Hr & _). refine (for_up_pc wf _ _ _ _ _ _ Hr H).
  intros i x y Hx Hy. apply bind_ok in Hy. destruct Hy as (idx & _ & Hy).
  assert (HC : forall rem idx f inds x y, wf x -> CombineControlPoints MAXB pmul rem s t idx f inds x = Ok y -> wf y).
  { clear. induction rem as [|rem IH]; intros idx f inds x y Hx Hy; [discriminate|]. cbn [CombineControlPoints] in Hy.
    apply bind_ok in Hy. destruct Hy as (k & _ & Hy). apply bind_ok in Hy. destruct Hy as (m & _ & Hy).
    apply bind_ok in Hy. destruct Hy as (n & _ & Hy). refine (for_up_pc wf _ _ _ _ _ _ Hx Hy).
    intros j a b Ha Hb. apply bind_ok in Hb. destruct Hb as (cm & _ & Hb). apply bind_ok in Hb. destruct Hb as (cn & _ & Hb).
    apply bind_ok in Hb. destruct Hb as (cmn & _ & Hb). apply bind_ok in Hb. destruct Hb as (lf & _ & Hb).
    destruct rem; [|eapply IH; eauto]. cbv zeta in Hb. apply bind_ok in Hb. destruct Hb as (c & _ & Hb).
    apply bind_ok in Hb. destruct Hb as (a1 & _ & Hb). apply bind_ok in Hb. destruct Hb as (b1 & _ & Hb).
    eapply SetControlPoint_wf; eauto. }
  eapply HC; eauto.
Qed.

Section Scalars.
Context (MAXB : nat) {T : Type} {o : SOps T}.

Lemma const_one_wf dim (s : spline T) : const_one dim = Ok s -> wf s.
Proof. intros H. eapply Spline_deg_points_wf; eauto. Qed.
Lemma RaisePower_wf (s : spline T) n s' : wf s -> RaisePower MAXB s n = Ok s' -> wf s'.
Proof.
  unfold RaisePower. generalize (S n) at 1. intros fuel Hw. revert n s'.
  induction fuel as [|f IH]; intros n s' H; [discriminate|]. cbn [RaisePower_rec] in H.
  destruct (n =? 0); [eapply const_one_wf; eauto|]. destruct (n =? 1); [injection H as <-; auto|].
  apply bind_ok in H. destruct H as (r & Er & H). apply bind_ok in H. destruct H as (rr & Err & H).
  destruct (n mod 2 =? 0); [injection H as <-|]; eapply mul_wf; eauto.
Qed.

Lemma bernstein_basis_wf dim p (c ic : spline T) l : bernstein_basis_splines MAXB dim p c ic = Ok l ->
  Forall wf l.
Proof.
  intros H. unfold bernstein_basis_splines in H.
  apply bind_ok in H. destruct H as (one & E1 & H). apply const_one_wf in E1. cbv zeta in H.
  apply bind_ok in H. destruct H as (b & Eb & H).
  set (d := mkSpline (repeat 0 dim) 0 (repeat 0 dim) ([] : list T)) in *.
  apply bind_ok in H. destruct H as ((b1 & m1) & L1 & H).
  assert (HS : forall (l : list (spline T)) i x l', set l i x = Ok l' -> wf x ->
    forall n, (forall j, j < n -> wf (nth j l d)) -> forall j, j < n -> wf (nth j l' d)).
  { intros l0 i x l' HE Hx n Hl j Hj. unfold set in HE. destruct (Nat.ltb_spec i (length l0)); [|discriminate]. injection HE as <-.
    rewrite nth_upd by auto. destruct (j =? i); auto. }
  assert (I1 : length b1 = p + 1 /\ forall j, j < 1 + p -> wf (nth j b1 d)).
  { refine (for_up_pci (fun i (st : list (spline T) * spline T) => length (fst st) = p + 1 /\ forall j, j < i -> wf (nth j (fst st) d))
      _ _ _ _ _ _ _ L1).
    - intros i (x & m) (y & m') Hi (HL & HF) Hy. apply bind_ok in Hy. destruct Hy as (m2 & Em & Hy).
      apply bind_ok in Hy. destruct Hy as (x2 & Ex & Hy). injection Hy as <- <-. simpl in *.
      pose proof (set_length_inv _ _ _ _ Ex). split; [lia|]. intros j Hj. unfold set in Ex.
      destruct (Nat.ltb_spec i (length x)); [|discriminate]. injection Ex as <-. rewrite nth_upd by auto.
      destruct (Nat.eqb_spec j i); [eapply mul_wf; eauto|]. apply HF. lia.
    - simpl. pose proof (set_length_inv _ _ _ _ Eb) as HL. rewrite repeat_length in HL. split; auto. intros j Hj.
      unfold set in Eb. rewrite repeat_length in Eb. destruct (0 <? p + 1); [|discriminate]. injection Eb as <-.
      rewrite nth_upd by (rewrite repeat_length; lia). replace (j =? 0) with true by (symmetry; apply Nat.eqb_eq; lia). auto. }
  apply bind_ok in H. destruct H as ((b2 & m2) & L2 & H).
  assert (I2 : length b2 = p + 1 /\ forall j, j < 1 + p -> wf (nth j b2 d)).
  { refine (for_up_pc (fun st : list (spline T) * spline T => length (fst st) = p + 1 /\ forall j, j < 1 + p -> wf (nth j (fst st) d))
      _ _ _ _ (b1, one) _ I1 L2).
    intros i (x & m) (y & m') (HL & HF) Hy. apply bind_ok in Hy. destruct Hy as (m3 & Em & Hy).
    apply bind_ok in Hy. destruct Hy as (x1 & _ & Hy). apply bind_ok in Hy. destruct Hy as (x2 & Ex2 & Hy).
    apply bind_ok in Hy. destruct Hy as (x3 & Ex & Hy). injection Hy as <- <-. simpl in *.
    pose proof (set_length_inv _ _ _ _ Ex). split; [lia|]. eapply HS; eauto. eapply mul_wf; eauto. }
  assert (I3 : length l = p + 1 /\ forall j, j < 1 + p -> wf (nth j l d)).
  { refine (for_up_pc (fun st : list (spline T) => length st = p + 1 /\ forall j, j < 1 + p -> wf (nth j st d)) _ _ _ _ _ _ I2 H).
    intros i x y (HL & HF) Hy. apply bind_ok in Hy. destruct Hy as (x1 & E1' & Hy). apply bind_ok in Hy. destruct Hy as (k & _ & Hy).
    apply bind_ok in Hy. destruct Hy as (x2 & E2 & Hy). pose proof (set_length_inv _ _ _ _ Hy). split; [lia|].
    eapply HS; eauto. eapply map_points_wf; [|exact E2]. unfold get in E1'. destruct (nth_error x (p - i)) eqn:En; [|discriminate].
    injection E1' as <-. rewrite <- (nth_error_nth _ _ d En). apply HF. lia. }
  apply Forall_forall. intros x Hx. apply (In_nth _ _ d) in Hx. destruct Hx as (j & Hj & <-). apply I3. destruct I3. lia.
Qed.
End Scalars.

Lemma Forall_get {A} (P : A -> Prop) l i x : Forall P l -> get l i = Ok x -> P x.
Proof.
  intros HF H. unfold get in H. destruct (nth_error l i) eqn:E; [|discriminate]. injection H as <-.
  rewrite Forall_forall in HF. apply HF. eapply nth_error_In; eauto.
Qed.
Lemma Forall_set {A} (P : A -> Prop) l i x l' : Forall P l -> P x -> set l i x = Ok l' -> Forall P l'.
Proof.
  intros HF Hx H. unfold set in H. destruct (i <? length l); [|discriminate]. injection H as <-.
  revert i. induction HF as [|y l Hy HF IH]; intros [|i]; simpl; constructor; auto.
Qed.

Section Compose.
Context (MAXB : nat) {T V : Type} {o : SOps T} {ov : VOps T V}.

Lemma all_basis_wf (outer : spline V) dim extract inverse l : all_basis_splines MAXB outer dim extract inverse = Ok l ->
  Forall (Forall wf) l.
Proof.
  intros H. unfold all_basis_splines in H. refine (for_up_pc (Forall (Forall wf)) _ _ _ _ _ _ _ H).
  - intros i x y Hx Hy. apply bind_ok in Hy. destruct Hy as (p & _ & Hy). apply bind_ok in Hy. destruct Hy as (c & _ & Hy).
    apply bind_ok in Hy. destruct Hy as (ic & _ & Hy). apply bind_ok in Hy. destruct Hy as (b & Eb & Hy).
    eapply Forall_set; [exact Hx| |exact Hy]. eapply bernstein_basis_wf; eauto.
  - apply Forall_forall. intros x Hx. apply repeat_spec in Hx. subst x. constructor.
Qed.
Lemma tensor_wf (bs : list (list (spline T))) idx dim t : Forall (Forall wf) bs -> tensor_spline MAXB bs idx dim = Ok t -> wf t.
Proof.
  intros HF H. unfold tensor_spline in H. apply bind_ok in H. destruct H as (b0 & E0 & H). apply bind_ok in H. destruct H as (i0 & _ & H).
  apply bind_ok in H. destruct H as (t0 & Et & H). refine (for_up_pc wf _ _ _ _ _ _ _ H).
  - intros k x y Hx Hy. apply bind_ok in Hy. destruct Hy as (b & _ & Hy). apply bind_ok in Hy. destruct Hy as (i & _ & Hy).
    apply bind_ok in Hy. destruct Hy as (z & _ & Hy). eapply mul_wf; eauto.
  - eapply Forall_get; [|exact Et]. eapply Forall_get; eauto.
Qed.
Lemma ComposeNumerator_wf (outer : spline V) degs extract inverse s' :
  ComposeNumerator MAXB outer degs extract inverse = Ok s' -> wf s'.
Proof.
  intros H. unfold ComposeNumerator in H. cbv zeta in H. apply bind_ok in H. destruct H as (r & Er & H).
  apply bind_ok in H. destruct H as (bs & _ & H). apply Spline_deg_wf in Er. destruct Er as (Hr & _).
  refine (for_up_pc wf _ _ _ _ _ _ Hr H). intros i x y Hx Hy.
  apply bind_ok in Hy. destruct Hy as (idx & _ & Hy). apply bind_ok in Hy. destruct Hy as (t & _ & Hy).
  apply bind_ok in Hy. destruct Hy as ([] & _ & Hy). apply bind_ok in Hy. destruct Hy as (c & El & Hy). injection Hy as <-.
  apply wf_cps; auto. refine (for_up_pc (fun c => length c = length (control_points x)) _ _ _ _ _ _ eq_refl El).
  intros j a b Ha Hb. inv_ok. rewrite <- Ha. eapply set_length_inv; eauto.
Qed.
Lemma ComposeSens_wf (outer : spline V) degs extract inverse l :
  ComposeNumeratorSensitivity MAXB outer degs extract inverse = Ok l -> Forall wf l.
Proof.
  intros H. unfold ComposeNumeratorSensitivity in H. apply bind_ok in H. destruct H as (bs & Eb & H). apply all_basis_wf in Eb.
  refine (for_up_pc (Forall wf) _ _ _ _ _ _ _ H); [|constructor]. intros i x y Hx Hy.
  apply bind_ok in Hy. destruct Hy as (idx & _ & Hy). apply bind_ok in Hy. destruct Hy as (t & Et & Hy). injection Hy as <-.
  apply Forall_app. split; auto. constructor; [|constructor]. eapply tensor_wf; eauto.
Qed.
End Compose.

Section PointOps.
Context {T : Type} {o : SOps T} {d : nat}.
Lemma Extract_wf (s : spline (point T d)) k s' : ExtractDimension s k = Ok s' -> wf s'.
Proof.
  intros H. unfold ExtractDimension in H. destruct (d <=? k); [discriminate|]. apply bind_ok in H. destruct H as (e & Ee & H).
  apply bind_ok in H. destruct H as (c & El & H). injection H as <-. apply Spline_deg_wf in Ee. destruct Ee as (Hw & _).
  apply wf_cps; auto. refine (for_up_pc (fun c => length c = length (control_points e)) _ _ _ _ _ _ eq_refl El).
  intros j a b Ha Hb. inv_ok. rewrite <- Ha. eapply set_length_inv; eauto.
Qed.
Lemma Transpose_wf (s : spline (point T d)) t sc s' : wf s -> TransposeAndScale s t sc = Ok s' -> wf s'.
Proof.
  intros Hw H. unfold TransposeAndScale in H. apply bind_ok in H. destruct H as (c & El & H). injection H as <-.
  apply wf_cps; auto. refine (for_up_pc (fun c => length c = length (control_points s)) _ _ _ _ _ _ eq_refl El).
  intros j a b Ha Hb. refine (for_up_pc (fun c => length c = length (control_points s)) _ _ _ _ _ _ Ha Hb).
  intros i x y Hx Hy. inv_ok. rewrite <- Hx. eapply set_length_inv; eauto.
Qed.
Lemma Fit_wf (s : spline (point T d)) s' : wf s -> FitIntoUnitCube s = Ok s' -> wf s'.
Proof.
  intros Hw H. unfold FitIntoUnitCube in H. apply bind_ok in H. destruct H as (mx & _ & H). apply bind_ok in H. destruct H as (mn & _ & H).
  apply bind_ok in H. destruct H as (sc & _ & H). eapply Transpose_wf; eauto.
Qed.
End PointOps.

(** ** Rational splines *)
Lemma list_eqb_eq l m : list_eqb Nat.eqb l m = true -> l = m.
Proof.
  revert m. induction l as [|a l IH]; intros [|b m]; simpl; try discriminate; auto. intros H.
  apply andb_true_iff in H. destruct H as (H1 & H2). apply Nat.eqb_eq in H1. f_equal; auto.
Qed.
Section Rat.
Context {T V : Type} {o : SOps T} {ov : VOps T V}.

Lemma R_mk_rwf (u : spline V) (w : spline T) r : wf u -> wf w -> R_mk u w = Ok r -> rwf r.
Proof.
  intros Hu Hw H. unfold R_mk, compatible, assert_ in H. simpl in H. destruct (list_eqb _ _ _) eqn:E; [|discriminate].
  injection H as <-. apply list_eqb_eq in E. split; auto.
Qed.
Ltac bnd H := let x := fresh "x" in let E := fresh "E" in apply bind_ok in H; destruct H as (x & E & H).

Lemma R_of_spline_rwf (s : spline V) r : wf s -> R_of_spline s = Ok r -> rwf r.
Proof. intros Hw H. unfold R_of_spline in H. bnd H. eapply R_mk_rwf; [| |exact H]; auto. eapply Spline_deg_points_wf; eauto. Qed.
Lemma R_deg_rwf deg (r : rspline T V) : R_deg deg = Ok r -> rwf r.
Proof.
  intros H. unfold R_deg in H. bnd H. bnd H. injection H as <-. apply Spline_deg_wf in E, E0. destruct E, E0. split; auto.
  split; auto. simpl. congruence.
Qed.
Lemma R_deg_points_rwf deg pts ws (r : rspline T V) : R_deg_points deg pts ws = Ok r -> rwf r.
Proof.
  intros H. unfold R_deg_points in H. bnd H. bnd H. bnd H. bnd H. bnd H. apply Spline_deg_wf in E. destruct E as (Hu & _).
  apply Spline_deg_points_wf in E0. destruct E0 as (Hw & _). eapply R_mk_rwf; [| |exact H]; auto. apply wf_cps; auto.
  refine (for_up_pc (fun c => length c = length (control_points x)) _ _ _ _ _ _ eq_refl E3).
  intros j a b Ha Hb. inv_ok. rewrite <- Ha. eapply set_length_inv; eauto.
Qed.
Lemma R_Update_rwf (r0 : rspline T V) deg r : R_UpdateDegrees r0 deg = Ok r -> rwf r.
Proof.
  intros H. unfold R_UpdateDegrees in H. bnd H. bnd H. apply UpdateDegrees_wf in E, E0. destruct E, E0. eapply R_mk_rwf; [| |exact H]; auto.
Qed.
Lemma R_Elevate_rwf (r : rspline T V) k r' : rwf r -> R_OrderElevate r k = Ok r' -> rwf r'.
Proof.
  intros (Hu & Hw & _) H. unfold R_OrderElevate in H. bnd H. bnd H. apply OrderElevate_wf in E, E0; auto. eapply R_mk_rwf; [| |exact H]; auto.
Qed.
Lemma R_Split_rwf (r : rspline T V) plane k l : rwf r -> R_SplitAtPosition r plane k = Ok l ->
  exists a b, l = [a; b] /\ rwf a /\ rwf b.
Proof.
  intros (Hu & Hw & _) H. unfold R_SplitAtPosition in H. bnd H. bnd H. apply Split_wf in E, E0; auto.
  destruct E as (a & b & -> & Ha & Hb & _). destruct E0 as (a' & b' & -> & Ha' & Hb' & _). cbn [get nth_error bind] in H.
  bnd H. bnd H. injection H as <-. do 2 eexists. split; [reflexivity|]. split; eapply R_mk_rwf; [| |exact E| | |exact E0]; auto.
Qed.
Lemma R_Splits_rwf (r : rspline T V) planes k l : rwf r -> R_SplitAtPositions r planes k = Ok l -> Forall rwf l.
Proof.
  intros Hw H. unfold R_SplitAtPositions in H. destruct (negb _); [discriminate|].
  destruct (length planes =? 0); [injection H as <-; auto|].
  bnd H. bnd H. apply R_Split_rwf in E0; auto. destruct E0 as (a & b & -> & Ha & Hb). cbn [get nth_error bind] in H.
  apply bind_ok in H. destruct H as ((out & sp) & El & H).
  assert (HI : Forall rwf out /\ Forall rwf sp).
  { refine (for_up_pc (fun st : list (rspline T V) * list (rspline T V) => Forall rwf (fst st) /\ Forall rwf (snd st)) _ _ _ _ _ _ _ El).
    - intros i (x1 & x2) (y1 & y2) (Hx1 & Hx2) Hy. simpl in *. bnd Hy. bnd Hy. bnd Hy. bnd Hy. bnd Hy.
      apply (Forall_get _ _ _ _ Hx2) in E3. apply R_Split_rwf in E4; auto. destruct E4 as (a' & b' & -> & Ha' & Hb').
      cbn [get nth_error bind] in Hy. injection Hy as <- <-.
      split; [apply Forall_app; split; [exact Hx1|]|]; repeat (apply Forall_cons; [assumption|]); apply Forall_nil.
    - split; repeat (apply Forall_cons; [assumption|]); apply Forall_nil. }
  bnd H. injection H as <-. apply Forall_app. split; [apply HI|]. constructor; [|constructor]. eapply Forall_get; [apply HI|exact E0].
Qed.

Lemma R_shift_loop_wf op (r : rspline T V) p u : rwf r -> R_shift_loop op r p = Ok u -> wf u /\ degrees u = rdegrees r.
Proof.
  intros (Hu & _) H. unfold R_shift_loop in H. bnd H. injection H as <-. split; [|reflexivity]. apply wf_cps; auto.
  refine (for_up_pc (fun c => length c = length (control_points (weighted_spline r))) _ _ _ _ _ _ eq_refl E).
  intros j a b Ha Hb. inv_ok. rewrite <- Ha. eapply set_length_inv; eauto.
Qed.
Lemma R_scale_assign_rwf (r : rspline T V) c r' : rwf r -> R_scale_assign r c = Ok r' -> rwf r'.
Proof. intros (Hu & Hw & _) H. unfold R_scale_assign in H. bnd H. apply map_points_wf in E; auto. eapply R_mk_rwf; [| |exact H]; tauto. Qed.
Lemma R_shift_assign_rwf (r : rspline T V) p r' : rwf r -> R_shift_assign r p = Ok r' -> rwf r'.
Proof. intros Hr H. pose proof Hr as (Hu & Hw & _). unfold R_shift_assign in H. bnd H. apply R_shift_loop_wf in E; auto. eapply R_mk_rwf; [| |exact H]; tauto. Qed.
Lemma R_unshift_assign_rwf (r : rspline T V) p r' : rwf r -> R_unshift_assign r p = Ok r' -> rwf r'.
Proof.
  intros Hr H. pose proof Hr as (Hu & Hw & Hd). unfold R_unshift_assign in H. bnd H. apply R_shift_loop_wf in E; auto. injection H as <-.
  destruct E as (H1 & H2). split; auto. split; auto. simpl. rewrite H2. exact Hd.
Qed.
Lemma R_shift_rwf (r : rspline T V) p r' : rwf r -> R_shift r p = Ok r' -> rwf r'.
Proof. intros (Hu & Hw & _) H. unfold R_shift in H. bnd H. apply R_mk_rwf in E; auto. eapply R_shift_assign_rwf; eauto. Qed.
Lemma R_unshift_rwf (r : rspline T V) p r' : rwf r -> R_unshift r p = Ok r' -> rwf r'.
Proof. intros (Hu & Hw & _) H. unfold R_unshift in H. bnd H. apply R_mk_rwf in E; auto. eapply R_unshift_assign_rwf; eauto. Qed.
Lemma R_neg_rwf (r : rspline T V) r' : rwf r -> R_neg r = Ok r' -> rwf r'.
Proof. intros (Hu & Hw & _) H. unfold R_neg in H. bnd H. apply neg_wf in E; auto. eapply R_mk_rwf; [| |exact H]; tauto. Qed.

Lemma spline_eqb_degrees {X} {ox : VOps T X} (a b : spline X) : spline_eqb a b = true -> degrees b = degrees a.
Proof. unfold spline_eqb. destruct (list_eqb Nat.eqb (degrees b) (degrees a)) eqn:E; [|discriminate]. intros _. apply list_eqb_eq. auto. Qed.
Lemma elevate_all_same fuel (x y : spline V) targets : targets = degrees x -> elevate_all fuel targets x = Ok y -> y = x.
Proof.
  intros -> H. unfold elevate_all in H. refine (for_up_pc (fun y => y = x) _ _ _ _ _ _ eq_refl H).
  intros i a b -> Hb. bnd Hb. unfold elevate_to in Hb. destruct fuel; [discriminate|]. cbn [while_] in Hb.
  assert (Hn : nth i (degrees x) 0 = x0).
  { unfold get in E. destruct (nth_error (degrees x) i) eqn:En; [|discriminate]. injection E as <-. apply nth_error_nth. auto. }
  rewrite Hn, Nat.ltb_irrefl in Hb. injection Hb as <-. reflexivity.
Qed.
Lemma add_assign_degrees fuel (a b c : spline V) : wf a -> degrees b = degrees a -> spline_add_assign fuel a b = Ok c ->
  degrees c = degrees a.
Proof.
  intros Ha Hd H. unfold spline_add_assign in H. bnd H. bnd H. apply elevate_all_same in E; auto. subst x.
  apply combine_wf in H; auto. apply H.
Qed.
Lemma sub_assign_degrees fuel (a b c : spline V) : wf a -> degrees b = degrees a -> spline_sub_assign fuel a b = Ok c ->
  degrees c = degrees a.
Proof.
  intros Ha Hd H. unfold spline_sub_assign in H. bnd H. bnd H. apply elevate_all_same in E; auto. subst x.
  apply combine_wf in H; auto. apply H.
Qed.

Context (MAXB fuel : nat).
Lemma R_add_rwf (r t r' : rspline T V) : rwf r -> rwf t -> R_add MAXB fuel r t = Ok r' -> rwf r'.
Proof.
  intros (Hu & Hw & _) (Hu' & Hw' & _) H. unfold R_add in H. destruct (spline_eqb _ _).
  - bnd H. eapply R_mk_rwf; [| |exact H]; auto. eapply add_wf; [| |exact E]; auto.
  - bnd H. bnd H. bnd H. bnd H. eapply R_mk_rwf; [| |exact H]; [|eapply mul_wf; eauto].
    eapply add_wf; [| |exact E1]; eapply mul_wf; eauto.
Qed.
Lemma R_sub_rwf (r t r' : rspline T V) : rwf r -> rwf t -> R_sub MAXB fuel r t = Ok r' -> rwf r'.
Proof.
  intros (Hu & Hw & _) (Hu' & Hw' & _) H. unfold R_sub in H. destruct (spline_eqb _ _).
  - bnd H. eapply R_mk_rwf; [| |exact H]; auto. eapply sub_wf; exact E.
  - bnd H. bnd H. bnd H. bnd H. eapply R_mk_rwf; [| |exact H]; [|eapply mul_wf; eauto]. eapply sub_wf; exact E1.
Qed.
Lemma R_add_assign_rwf (r t r' : rspline T V) : rwf r -> rwf t -> R_add_assign MAXB fuel r t = Ok r' -> rwf r'.
Proof.
  intros (Hu & Hw & Hd) (Hu' & Hw' & Hd') H. unfold R_add_assign in H. destruct (spline_eqb _ _) eqn:Ee.
  - bnd H. injection H as <-. apply spline_eqb_degrees in Ee. pose proof (add_assign_wf _ _ _ _ Hu Hu' E).
    apply add_assign_degrees in E; auto; [|congruence]. split; auto. split; auto. simpl. congruence.
  - bnd H. bnd H. bnd H. bnd H. eapply R_mk_rwf; [| |exact H]; [|eapply mul_wf; eauto].
    eapply add_assign_wf; [| |exact E1]; eapply mul_wf; eauto.
Qed.
Lemma R_sub_assign_rwf (r t r' : rspline T V) : rwf r -> rwf t -> R_sub_assign MAXB fuel r t = Ok r' -> rwf r'.
Proof.
  intros (Hu & Hw & Hd) (Hu' & Hw' & Hd') H. unfold R_sub_assign in H. destruct (spline_eqb _ _) eqn:Ee.
  - bnd H. injection H as <-. apply spline_eqb_degrees in Ee. pose proof (sub_assign_wf _ _ _ _ Hu Hu' E).
    apply sub_assign_degrees in E; auto; [|congruence]. split; auto. split; auto. simpl. congruence.
  - bnd H. bnd H. bnd H. bnd H. eapply R_mk_rwf; [| |exact H]; [|eapply mul_wf; eauto].
    eapply sub_assign_wf; [| |exact E1]; eapply mul_wf; eauto.
Qed.
Lemma R_Derivative_rwf (r : rspline T V) orders r' : rwf r -> R_DerivativeWRT MAXB fuel r orders = Ok r' -> rwf r'.
Proof.
  intros Hr H. unfold R_DerivativeWRT in H. refine (for_up_pc rwf _ _ _ _ _ _ Hr H).
  intros i x y Hx Hy. bnd Hy. refine (for_up_pc rwf _ _ _ _ _ _ Hx Hy). intros j a b (Ha & Hb & _) Hab.
  unfold R_derivative_step in Hab. do 8 bnd Hab. eapply R_mk_rwf; [| |exact Hab].
  - eapply OrderElevate_wf; [|eassumption]. eapply sub_wf; eauto.
  - eapply mul_wf; eauto.
Qed.
End Rat.

Ltac bnd H := let x := fresh "x" in let E := fresh "E" in apply bind_ok in H; destruct H as (x & E & H).
Lemma R_mul_rwf MAXB {T V1 V2 V3} {o : SOps T} {o3 : VOps T V3} (pmul : V1 -> V2 -> V3) (s : rspline T V1) (t : rspline T V2) r' :
  R_mul MAXB pmul s t = Ok r' -> rwf r'.
Proof. intros H. unfold R_mul in H. bnd H. bnd H. eapply R_mk_rwf; [| |exact H]; eapply mul_wf; eauto. Qed.

Section RCompose.
Context (MAXB fuel : nat) {T V : Type} {o : SOps T} {ov : VOps T V} {d : nat}.
Lemma PR_rwf (s : spline V) (t : rspline T (point T d)) r : rwf t -> Compose_PR MAXB fuel s t = Ok r -> rwf r.
Proof.
  intros (_ & Hw & _) H. unfold Compose_PR in H. bnd H. destruct (negb x); [discriminate|]. bnd H. bnd H.
  eapply R_mk_rwf; [| |exact H]; [eapply ComposeNumerator_wf; eauto|]. eapply RaisePower_wf; [|exact E1]; auto.
Qed.
Lemma RP_rwf (s : rspline T V) (t : spline (point T d)) r : Compose_RP MAXB s t = Ok r -> rwf r.
Proof.
  intros H. unfold Compose_RP in H. bnd H. bnd H. unfold Compose in *. bnd E. bnd E0. destruct (negb _); [discriminate|].
  destruct (negb _); [discriminate|]. eapply R_mk_rwf; [| |exact H]; eapply ComposeNumerator_wf; eauto.
Qed.
Lemma RR_rwf (s : rspline T V) (t : rspline T (point T d)) r : Compose_RR MAXB fuel s t = Ok r -> rwf r.
Proof.
  intros H. unfold Compose_RR in H. bnd H. bnd H. eapply R_mk_rwf; [| |exact H]; eapply ComposeNumerator_wf; eauto.
Qed.
Lemma PR_sens_rwf (s : spline V) (t : rspline T (point T d)) l : rwf t -> ComposeSensitivity_PR MAXB fuel s t = Ok l -> Forall rwf l.
Proof.
  intros (_ & Hw & _) H. unfold ComposeSensitivity_PR in H. bnd H. destruct (negb x); [discriminate|]. bnd H. bnd H.
  apply ComposeSens_wf in E0. apply RaisePower_wf in E1; auto. refine (for_up_pc (Forall rwf) _ _ _ _ _ _ _ H); [|constructor].
  intros i a b Ha Hb. bnd Hb. bnd Hb. injection Hb as <-. apply Forall_app. split; auto. constructor; [|constructor].
  eapply R_mk_rwf; [| |exact E3]; auto. eapply Forall_get; eauto.
Qed.
Lemma scale_sens_rwf (s : rspline T V) nums den l : Forall wf nums -> wf den -> scale_sensitivities s nums den = Ok l -> Forall rwf l.
Proof.
  intros HN HD H. unfold scale_sensitivities in H. refine (for_up_pc (Forall rwf) _ _ _ _ _ _ _ H); [|constructor].
  intros i a b Ha Hb. do 4 bnd Hb. injection Hb as <-. apply Forall_app. split; auto. constructor; [|constructor].
  eapply R_mk_rwf; [| |eassumption]; auto. eapply map_points_wf; [|eassumption]. eapply Forall_get; eauto.
Qed.
Lemma RP_sens_rwf (s : rspline T V) (t : spline (point T d)) l : ComposeSensitivity_RP MAXB s t = Ok l -> Forall rwf l.
Proof.
  intros H. unfold ComposeSensitivity_RP in H. bnd H. bnd H. unfold ComposeSensitivity, Compose in *. bnd E. bnd E0.
  destruct (negb _); [discriminate|]. destruct (negb _); [discriminate|].
  eapply scale_sens_rwf; [| |exact H]; [eapply ComposeSens_wf|eapply ComposeNumerator_wf]; eauto.
Qed.
Lemma RR_sens_rwf (s : rspline T V) (t : rspline T (point T d)) l : ComposeSensitivity_RR MAXB fuel s t = Ok l -> Forall rwf l.
Proof.
  intros H. unfold ComposeSensitivity_RR in H. bnd H. bnd H.
  eapply scale_sens_rwf; [| |exact H]; [eapply ComposeSens_wf|eapply ComposeNumerator_wf]; eauto.
Qed.
End RCompose.

(** ** Histories *)
Scheme built_mut := Minimality for built Sort Prop with rbuilt_mut := Minimality for rbuilt Sort Prop.
Combined Scheme built_both from built_mut, rbuilt_mut.

Lemma built_wf_both MAXB {T} {o : SOps T} :
  (forall V ov s, built MAXB V ov s -> wf s) /\ (forall V ov r, rbuilt MAXB V ov r -> rwf r).
Proof.
  apply (built_both MAXB T o (fun V ov s => wf s) (fun V ov r => rwf r)); intros;
  try (match goal with H : In _ _ |- _ => idtac end;
       match goal with H : _ = Ok ?l, HI : In ?x ?l |- _ ?x =>
         first [ apply Split_wf in H; [|assumption]; destruct H as (? & ? & -> & ? & ? & _); destruct HI as [<-|[<-|[]]]; assumption
               | apply Splits_wf in H; [|assumption]; rewrite Forall_forall in H; apply (H _ HI)
               | apply R_Split_rwf in H; [|assumption]; destruct H as (? & ? & -> & ? & ?); destruct HI as [<-|[<-|[]]]; assumption
               | apply R_Splits_rwf in H; [|assumption]; rewrite Forall_forall in H; apply (H _ HI)
               | apply PR_sens_rwf in H; [|assumption]; rewrite Forall_forall in H; apply (H _ HI)
               | apply RP_sens_rwf in H; rewrite Forall_forall in H; apply (H _ HI)
               | apply RR_sens_rwf in H; rewrite Forall_forall in H; apply (H _ HI) ] end; fail);
  try match goal with
    | H : Spline_deg _ = Ok _ |- _ => apply (proj1 (Spline_deg_wf _ _ H))
    | H : Spline_deg_points _ _ = Ok _ |- _ => apply (proj1 (Spline_deg_points_wf _ _ _ H))
    | H : UpdateDegrees _ _ = Ok _ |- _ => apply (proj1 (UpdateDegrees_wf _ _ _ H))
    | H : SetControlPoint _ _ _ = Ok _ |- _ => eapply SetControlPoint_wf; [|exact H]; assumption
    | H : SetControlPoint_variadic _ _ _ = Ok _ |- _ => eapply SetControlPoint_variadic_wf; [|exact H]; assumption
    | H : OrderElevate _ _ = Ok _ |- _ => eapply OrderElevate_wf; [|exact H]; assumption
    | H : DerivativeWRT _ _ _ = Ok _ |- _ => eapply DerivativeWRT_wf; exact H
    | H : spline_neg _ = Ok _ |- _ => eapply neg_wf; [|exact H]; assumption
    | H : point_minus_spline _ _ = Ok _ |- _ => eapply point_minus_wf; [|exact H]; assumption
    | H : spline_add _ _ _ = Ok _ |- _ => eapply add_wf; [| |exact H]; assumption
    | H : spline_add_assign _ _ _ = Ok _ |- _ => eapply add_assign_wf; [| |exact H]; assumption
    | H : spline_sub _ _ _ = Ok _ |- _ => eapply sub_wf; exact H
    | H : spline_sub_assign _ _ _ = Ok _ |- _ => eapply sub_assign_wf; [| |exact H]; assumption
    | H : spline_mul _ _ _ _ = Ok _ |- _ => eapply mul_wf; exact H
    | H : RaisePower _ _ _ = Ok _ |- _ => eapply RaisePower_wf; [|exact H]; assumption
    | H : ExtractDimension _ _ = Ok _ |- _ => eapply Extract_wf; exact H
    | H : TransposeAndScale _ _ _ = Ok _ |- _ => eapply Transpose_wf; [|exact H]; assumption
    | H : FitIntoUnitCube _ = Ok _ |- _ => eapply Fit_wf; [|exact H]; assumption
    | H : R_mk _ _ = Ok _ |- _ => eapply R_mk_rwf; [| |exact H]; assumption
    | H : R_of_spline _ = Ok _ |- _ => eapply R_of_spline_rwf; [|exact H]; assumption
    | H : R_deg _ = Ok _ |- _ => eapply R_deg_rwf; exact H
    | H : R_deg_points _ _ _ = Ok _ |- _ => eapply R_deg_points_rwf; exact H
    | H : R_UpdateDegrees _ _ = Ok _ |- _ => eapply R_Update_rwf; exact H
    | H : R_OrderElevate _ _ = Ok _ |- _ => eapply R_Elevate_rwf; [|exact H]; assumption
    | H : R_DerivativeWRT _ _ _ _ = Ok _ |- _ => eapply R_Derivative_rwf; [|exact H]; assumption
    | H : R_scale_assign _ _ = Ok _ |- _ => eapply R_scale_assign_rwf; [|exact H]; assumption
    | H : R_shift_assign _ _ = Ok _ |- _ => eapply R_shift_assign_rwf; [|exact H]; assumption
    | H : R_shift _ _ = Ok _ |- _ => eapply R_shift_rwf; [|exact H]; assumption
    | H : R_unshift_assign _ _ = Ok _ |- _ => eapply R_unshift_assign_rwf; [|exact H]; assumption
    | H : R_unshift _ _ = Ok _ |- _ => eapply R_unshift_rwf; [|exact H]; assumption
    | H : R_neg _ = Ok _ |- _ => eapply R_neg_rwf; [|exact H]; assumption
    | H : R_add _ _ _ _ = Ok _ |- _ => eapply R_add_rwf; [| |exact H]; assumption
    | H : R_add_assign _ _ _ _ = Ok _ |- _ => eapply R_add_assign_rwf; [| |exact H]; assumption
    | H : R_sub _ _ _ _ = Ok _ |- _ => eapply R_sub_rwf; [| |exact H]; assumption
    | H : R_sub_assign _ _ _ _ = Ok _ |- _ => eapply R_sub_assign_rwf; [| |exact H]; assumption
    | H : R_mul _ _ _ _ = Ok _ |- _ => eapply R_mul_rwf; exact H
    | H : Compose_PR _ _ _ _ = Ok _ |- _ => eapply PR_rwf; [|exact H]; assumption
    | H : Compose_RP _ _ _ = Ok _ |- _ => eapply RP_rwf; exact H
    | H : Compose_RR _ _ _ _ = Ok _ |- _ => eapply RR_rwf; exact H
    | H : scale_assign _ _ = Ok _ |- _ => eapply map_points_wf; [|exact H]; assumption
    | H : shift_assign _ _ = Ok _ |- _ => eapply map_points_wf; [|exact H]; assumption
    | H : unshift_assign _ _ = Ok _ |- _ => eapply map_points_wf; [|exact H]; assumption
    | H : Compose _ _ _ = Ok _ |- _ => unfold Compose in H; bnd H; destruct (negb _); [discriminate|]; eapply ComposeNumerator_wf; exact H
    | H : ComposeSensitivity _ _ _ = Ok _, HI : In _ _ |- _ => unfold ComposeSensitivity in H; bnd H; destruct (negb _); [discriminate|];
        apply ComposeSens_wf in H; rewrite Forall_forall in H; apply (H _ HI)
    | H : rwf ?r |- wf (weighted_spline ?r) => apply H
    | H : rwf ?r |- wf (weight_function ?r) => apply H
    | H : R_scale _ _ = Ok _ |- _ => eapply R_scale_assign_rwf; [|exact H]; assumption
    | H : map_points_self _ _ _ = Ok _ |- _ => eapply self_wf; [|exact H]; assumption
    | H : length _ = _ |- wf (with_cps _ _) => apply wf_cps; assumption
    end.
  - destruct H0 as (Hu & Hw & Hd). apply SetControlPoint_wf in H1; auto. destruct H1. split; auto. split; auto. simpl. congruence.
  - destruct H0 as (Hu & Hw & Hd). apply SetControlPoint_wf in H1; auto. destruct H1. split; auto. split; auto. simpl. congruence.
  - destruct H0 as (Hu & Hw & Hd). split; [apply wf_cps; auto|]. split; [apply wf_cps; auto|]. exact Hd.
Qed.

Lemma c02_histories_partial : forall (T : Type) (o : SOps T) (MAXB : nat),
  (forall V ov (s : spline V), built MAXB V ov s -> wf s) /\
  (forall V ov (r : rspline T V), rbuilt MAXB V ov r -> rwf r).
Proof. intros T o MAXB. apply built_wf_both. Qed.

Lemma c02_default_refuted : exists (dim : nat), dim <> 0 /\ forall V,
  let s : spline V := Spline_default dim in
  length (control_points s) <> n_coeffs (degrees s) /\ number_of_control_points s <> n_coeffs (degrees s).
Proof. exists 1. split; [discriminate|]. intros V s. split; discriminate. Qed.

(** One call of UpdateDegrees repairs a default-constructed spline. *)
Lemma c02_default_update : forall (T V : Type) (o : SOps T) (ov : VOps T V) dim deg, deg <> [] ->
  exists s, UpdateDegrees (Spline_default dim) deg = Ok s /\ wf s /\ degrees s = deg.
Proof.
  intros T V o ov dim deg H. rewrite UpdateDegrees_ok by auto. eexists. split; [reflexivity|].
  split; [|reflexivity]. apply wf_mk; [auto|apply length_resize].
Qed.

(** Until then it holds no control points: reading one, evaluating it and asking for the
    multi-index of a position are all undefined. *)
Lemma c02_default_undefined : forall (T V : Type) (o : SOps T) (ov : VOps T V) dim, dim <> 0 ->
  let s : spline V := Spline_default dim in
  (forall i, LocalToGlobalIndex s i = UB) /\
  (forall idx, length idx = dim -> ControlPoint s idx = UB) /\
  (forall xs : list T, length xs = dim -> Evaluate s xs = UB).
Proof.
  intros T V o ov dim Hd s. split; [|split].
  - intros i. unfold s, LocalToGlobalIndex, Spline_default. destruct dim as [|dim]; [congruence|].
    cbn [degrees index_offsets]. rewrite repeat_length. reflexivity.
  - intros idx HL. unfold s, ControlPoint, GlobalToLocalIndex, Spline_default. cbn [degrees index_offsets control_points].
    rewrite (get_ok 0 idx) by lia. cbn [bind].
    edestruct (for_up_inv (fun _ (_ : nat) => True)) as (q & E & _).
    3:{ rewrite E. destruct q; reflexivity. }
    + exact I.
    + cbv beta. intros i a Hi _. rewrite repeat_length in Hi.
      rewrite (get_ok 0 idx), (get_ok 0 (repeat 0 dim)) by (rewrite ?repeat_length; lia).
      cbn [bind]. eexists. split; [reflexivity|exact I].
  - intros xs HL. unfold s, Evaluate, Spline_default. cbn [degrees index_offsets control_points number_of_control_points].
    edestruct (for_up_inv (fun _ (st : list V * nat) => st = ([], 0))) as (q & E & Hq).
    3:{ rewrite E. subst q. reflexivity. }
    + reflexivity.
    + cbv beta. intros i a Hi ->. rewrite repeat_length in Hi.
      rewrite (get_ok (s0 : T) xs), (get_ok 0 (repeat 0 dim)) by (rewrite ?repeat_length; lia).
      cbn [bind]. rewrite nth_repeat. cbn. eexists. split; [reflexivity|reflexivity].
Qed.
