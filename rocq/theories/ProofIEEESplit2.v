(** Subdivision at arbitrary planes with bounded exponents: parts with finite control points or an exception. *)
From Coq Require Import Arith Lia List ZArith NArith Bool Reals Lra Psatz.
From Verif Require Import Prelude Scalar Spec SpecSpline Sums Order Coord ModelBasis ModelSpline ModelRational
  ModelRound SpecRound ModelIEEE SpecIEEE ProofIndex ProofBasis ProofEval ProofArith ProofSplit ProofRound ProofRoundEval ProofRoundOps
  ProofIEEE ProofIEEEEval ClaimsU ClaimsD ClaimsRoundOps ClaimsIEEE ProofIEEESplit.
Import ListNotations.
Local Open Scope R_scope.

Section Any.
Context (F : format) (HF : reasonable F) (rnd : R -> R) (HR : nearest_on_grid F rnd).
Notation oi := (SOps_ieee F rnd).
Let u := / 2 ^ prec F.
Context {V W : Type} {ow : VOps fl W} (fin : spline V -> spline W) (k : nat) (ok : spline V -> Prop).
Hypothesis Hok : forall s x, ok s -> on_grid F x -> 0 < x < 1 ->
  exists l r, SplitAtPosition (o := oi) (ov := ow) (fin s) (Fin x) k = Ok [fin l; fin r] /\ ok l /\ ok r.

(** What a parameter can be: any number of the format or no finite number. *)
Definition argument (x : fl) : Prop := match x with Fin t => on_grid F t | Exc => True end.

Lemma deliver_argument x : argument (deliver F rnd x).
Proof using HR. unfold deliver. destruct (Rle_dec _ _); cbn; auto. apply HR. Qed.
Lemma split_any s x : ok s -> argument x ->
  SplitAtPosition (o := oi) (ov := ow) (fin s) x k = Throw \/
  exists t l r, x = Fin t /\ 0 < t < 1 /\ SplitAtPosition (o := oi) (ov := ow) (fin s) x k = Ok [fin l; fin r] /\ ok l /\ ok r.
Proof using Hok.
  intros Hs Hx. destruct x as [t|]; [|left; reflexivity]. destruct (Rlt_dec 0 t) as [A|A]; [destruct (Rlt_dec t 1) as [B|B]|].
  - right. destruct (Hok s t Hs Hx (conj A B)) as (l & r & E & L & H). exists t, l, r. auto.
  - left. unfold SplitAtPosition. cbn [sltb SOps_ieee s0 s1]. destruct (Rlt_dec t 1); [lra|]. rewrite andb_false_r. reflexivity.
  - left. unfold SplitAtPosition. cbn [sltb SOps_ieee s0 s1]. destruct (Rlt_dec 0 t); [lra|]. reflexivity.
Qed.

(** The difference to 1 is zero for the plane 1 alone. *)
Lemma sub1 t : on_grid F t -> rnd (1 - t) = 0 -> t = 1.
Proof using HF HR.
  intros G E. pose proof (rnd_error_sum F HF rnd HR 1 (- t) (grid_1 F HF) (grid_opp F t G)) as H. change (1 + - t) with (1 - t) in H.
  rewrite E in H. replace (0 - (1 - t)) with (- (1 - t)) in H by ring. rewrite Rabs_Ropp in H. pose proof (unit_le1 F HF). fold u in H.
  pose proof (Rabs_pos (1 - t)). destruct (Req_dec (1 - t) 0) as [Z|Z]; [lra|]. apply Rabs_pos_lt in Z. fold u in H0. nra.
Qed.
(** The quotient is computed, and only planes between the last one and 1 give positions inside. *)
Lemma rel_any a b : on_grid F a -> 0 < a < 1 -> argument b ->
  exists x, divS (H := oi) (ssub (SOps := oi) b (Fin a)) (ssub (SOps := oi) (s1 (SOps := oi)) (Fin a)) = Ok x /\ argument x /\
    forall t, x = Fin t -> 0 < t < 1 -> exists c, b = Fin c /\ a < c < 1.
Proof using HF HR.
  intros Ga Ha Hb. unfold divS. cbn [ssub s1 s0 sdiv SOps_ieee fl_lift2]. pose proof (omega_1 F HF) as O1.
  assert (Y0 : 0 <= rnd (1 - a) <= 1) by (apply (rnd_unit F HF rnd HR); auto; lra).
  assert (Y1 : rnd (1 - a) <> 0) by (intros Z; apply sub1 in Z; auto; lra).
  rewrite (deliver_ok F rnd) by (rewrite Rabs_right by lra; lra).
  set (y := rnd (1 - a)) in *. assert (Yp : 0 < y) by lra.
  cbn [seqb SOps_ieee]. destruct (Req_EM_T y 0) as [Z|_]; [contradiction|]. eexists. split; [reflexivity|]. destruct b as [b|].
  2:{ split; [exact I|]. intros; discriminate. }
  cbn [fl_lift2]. destruct (deliver F rnd (b - a)) as [z|] eqn:Ez; [|split; [exact I|intros; discriminate]].
  cbn [fl_lift2]. destruct (Req_EM_T y 0) as [Z|_]; [contradiction|]. split; [apply deliver_argument|].
  intros t Et Ht. exists b. split; [reflexivity|].
  assert (Hz : z = rnd (b - a)) by (unfold deliver in Ez; destruct (Rle_dec _ _); [congruence|discriminate]).
  assert (Et' : t = rnd (z / y)) by (unfold deliver in Et; destruct (Rle_dec _ _); [congruence|discriminate]).
  split.
  - apply Rnot_le_lt. intros H. assert (Z0 : z <= 0) by (rewrite Hz, <- (ProofIEEE.rnd_0 F rnd HR); apply (rnd_mono F rnd HR); lra).
    assert (Q : z / y <= 0) by (apply Rmult_le_reg_r with y; auto; replace (z / y * y) with z by (field; lra); lra).
    apply (rnd_mono F rnd HR) in Q. rewrite (ProofIEEE.rnd_0 F rnd HR) in Q. lra.
  - apply Rnot_le_lt. intros H. assert (Z0 : y <= z) by (rewrite Hz; apply (rnd_mono F rnd HR); lra).
    assert (Q : 1 <= z / y) by (apply Rmult_le_reg_r with y; auto; replace (z / y * y) with z by (field; lra); lra).
    apply (rnd_mono F rnd HR) in Q. rewrite (rnd_id F rnd HR 1 (grid_1 F HF)) in Q. lra.
Qed.

Context (planes : list fl) (HA : Forall argument planes).
Notation pl i := (nth i planes (Fin 0)).
Lemma pl_arg i : argument (pl i).
Proof using HF HA.
  destruct (Nat.lt_ge_cases i (length planes)) as [H|H]; [rewrite Forall_forall in HA; apply HA, nth_In, H|].
  rewrite nth_overflow by auto. apply grid_0.
Qed.
Lemma any_loop m : forall lo out a b t, (1 <= lo)%nat -> (lo + m = length planes)%nat -> Forall ok out -> ok b -> pl (lo - 1) = Fin t -> 0 < t < 1 ->
  for_up lo m (split_step (o := oi) (ov := ow) planes k) (map fin out, [a; fin b]) = Throw \/
  exists parts a' b', for_up lo m (split_step (o := oi) (ov := ow) planes k) (map fin out, [a; fin b]) = Ok (map fin (out ++ parts), [a'; fin b']) /\
    length parts = m /\ Forall ok (out ++ parts) /\ ok b' /\
    forall i, (i < m)%nat -> exists x y, pl (lo + i - 1) = Fin x /\ pl (lo + i) = Fin y /\ 0 < x < y /\ y < 1.
Proof using HF HR HA Hok.
  induction m; intros lo out a b t0 H1 Hlen Ho Hb Ep Ht0.
  - right. exists [], a, b. cbn [for_up]. rewrite app_nil_r. do 4 (split; [auto|]). intros; lia.
  - cbn [for_up]. unfold split_step at 1 3. rewrite (get_ok (Fin 0)) by lia. cbn [bind].
    rewrite (get_ok (Fin 0)) by lia. cbn [bind]. rewrite Ep.
    assert (G0 : on_grid F t0) by (pose proof (pl_arg (lo - 1)) as A; rewrite Ep in A; exact A).
    destruct (rel_any t0 (pl lo) G0 Ht0 (pl_arg _)) as (x & E & Ax & N1). rewrite E. cbn [bind get nth_error].
    destruct (split_any b x Hb Ax) as [T|(t & l & r & Et & Ht & ES & Ol & Or)]; [rewrite T; left; reflexivity|].
    rewrite ES. cbn [bind get nth_error]. destruct (N1 t Et Ht) as (c & Ec & Hc).
    destruct (IHm (S lo) (out ++ [l]) (fin l) r c ltac:(lia) ltac:(lia)) as [T|(parts & a' & b' & E2 & L & FO & OB & HP)].
    + apply Forall_app; auto.
    + exact Or.
    + replace (S lo - 1)%nat with lo by lia. exact Ec.
    + lra.
    + left. rewrite map_app in T. exact T.
    + right. exists (l :: parts), a', b'. rewrite map_app in E2. cbn [map] in E2. rewrite E2, <- app_assoc. split; [reflexivity|].
      split; [cbn [length]; lia|]. rewrite <- app_assoc in FO. split; [exact FO|]. split; [exact OB|].
      intros [|i] Hi.
      * exists t0, c. rewrite Nat.add_0_r. repeat split; auto; lra.
      * replace (lo + S i)%nat with (S lo + i)%nat by lia. apply HP. lia.
Qed.
Lemma any_splits s : ok s ->
  SplitAtPositions (o := oi) (ov := ow) (fin s) planes k = Throw \/
  exists parts ts, SplitAtPositions (o := oi) (ov := ow) (fin s) planes k = Ok (map fin parts) /\ length parts = S (length planes) /\ Forall ok parts /\
    planes = map Fin ts /\ forall i, (i < length ts)%nat -> 0 < nth i ts 0 < 1 /\ ((S i < length ts)%nat -> nth i ts 0 < nth (S i) ts 0).
Proof using HF HR HA Hok.
  intros Hs. destruct (is_sorted (o := oi) planes) eqn:ES; [|left; unfold SplitAtPositions; rewrite ES; reflexivity].
  destruct (Nat.eq_dec (length planes) 0) as [En|Nn].
  { right. exists [s], []. assert (Ep : planes = []) by (destruct planes; auto; discriminate). rewrite Ep. split; [reflexivity|]. split; [reflexivity|].
    split; [constructor; auto|]. split; [reflexivity|]. cbn [length]. intros; lia. }
  rewrite (SplitAtPositions_step (o := oi) (ov := ow)) by (auto; intros E; rewrite E in Nn; auto).
  change (s0 (SOps := oi)) with (Fin 0).
  destruct (split_any s (pl 0) Hs (pl_arg _)) as [T|(t & l & r & Et & Ht & E & Ol & Or)]; [rewrite T; left; reflexivity|].
  rewrite E. cbn [bind get nth_error].
  destruct (any_loop (length planes - 1) 1 [l] (fin l) r t ltac:(lia) ltac:(lia) ltac:(constructor; auto) Or Et Ht) as [T|(parts & a' & b' & E2 & L & FO & OB & HP)].
  - left. cbn [map] in T. rewrite T. reflexivity.
  - right. cbn [map] in E2. rewrite E2. cbn [bind get nth_error].
    set (val := fun x : fl => match x with Fin y => y | Exc => 0 end). exists (([l] ++ parts) ++ [b']), (map val planes).
    split; [rewrite (map_app fin ([l] ++ parts)); reflexivity|].
    split; [rewrite !app_length; cbn [length]; lia|]. split; [apply Forall_app; auto|].
    assert (Hf : forall i, (i < length planes)%nat -> exists x, pl i = Fin x /\ 0 < x < 1).
    { intros [|i] Hi; [exists t; auto|]. destruct (HP i ltac:(lia)) as (x & y & _ & Ey & X & Y). exists y.
      replace (1 + i)%nat with (S i) in Ey by lia. split; auto. lra. }
    assert (Hv : forall i, nth i (map val planes) 0 = val (pl i)) by (intros i; change 0 with (val (Fin 0)) at 1; apply map_nth).
    split.
    + rewrite map_map. rewrite <- (map_id planes) at 1. apply map_ext_in. intros x Hx. destruct (In_nth _ _ (Fin 0) Hx) as (i & Hi & <-).
      destruct (Hf i Hi) as (v & -> & _). reflexivity.
    + rewrite map_length. intros i Hi. rewrite !Hv. destruct (Hf i Hi) as (v & Ev & Hv'). split; [rewrite Ev; exact Hv'|].
      intros Hi'. destruct (HP i ltac:(lia)) as (x & y & Ex & Ey & X & Y). replace (1 + i - 1)%nat with i in Ex by lia. replace (1 + i)%nat with (S i) in Ey by lia.
      rewrite Ex, Ey. cbn. lra.
Qed.
End Any.
