(** Objects after an exception. *)
From Coq Require Import Arith Lia List ZArith Bool.
From Verif Require Import Prelude Scalar Spec SpecSpline ModelPoint ModelSpline ModelRational ModelSize ModelSize2 ModelFail ProofIndex ProofEval ProofMul ProofDerivSpline ProofSize ProofSize2 ClaimsA ClaimsSize2.
Import ListNotations.
Local Open Scope nat_scope.

Lemma outcome_then {A} (p : A * res unit) f : outcome (then_ p f) = bind (outcome p) (fun x => outcome (f x)).
Proof. destruct p as (x & [u| | | | |]); reflexivity. Qed.
Lemma outcome_for {A} (f : nat -> A -> A * res unit) n : forall lo x, outcome (for_in lo n f x) = for_up lo n (fun i y => outcome (f i y)) x.
Proof. induction n; intros lo x; [reflexivity|]. cbn [for_in for_up]. rewrite outcome_then. apply bind_ext. intros y _. apply IHn. Qed.
Lemma outcome_while {A} (c : A -> bool) (f : A -> A * res unit) n : forall x, outcome (while_in n c f x) = while_ n c (fun y => outcome (f y)) x.
Proof. induction n; intros x; [reflexivity|]. cbn [while_in while_]. destruct (c x); [|reflexivity]. rewrite outcome_then. apply bind_ext. intros y _. apply IHn. Qed.
Lemma while_ext {A} (c : A -> bool) (f g : A -> res A) n : (forall x, f x = g x) -> forall x, while_ n c f x = while_ n c g x.
Proof. intros H. induction n; intros x; [reflexivity|]. cbn [while_]. destruct (c x); [|reflexivity]. rewrite H. apply bind_ext. intros y _. apply IHn. Qed.

Section Out.
Context (limit : nat) {T V : Type} {o : SOps T} {ov : VOps T V}.
Lemma UpdateDegrees_out (s : spline V) nd : outcome (UpdateDegrees_in (T := T) limit s nd) = UpdateDegrees_64 (T := T) limit s nd.
Proof.
  unfold UpdateDegrees_in, UpdateDegrees_64. destruct (count_points_64 nd); try reflexivity. cbn [bind]. destruct (limit <? a); [reflexivity|].
  destruct (UpdateIndexOffsets_64 nd); reflexivity.
Qed.
Lemma OrderElevate_out (s : spline V) k : outcome (OrderElevate_in (T := T) limit s k) = OrderElevate_64 (T := T) limit s k.
Proof. unfold OrderElevate_in. destruct (OrderElevate_64 limit s k); reflexivity. Qed.
Lemma elevate_all_out fuel ts (s : spline V) : outcome (elevate_all_in (T := T) limit fuel ts s) = elevate_all_64 (T := T) limit fuel ts s.
Proof.
  unfold elevate_all_in, elevate_all_64. rewrite outcome_for. apply for_up_ext. intros i x _. destruct (get ts i); try reflexivity. cbn [bind].
  unfold elevate_to_in, elevate_to_64. rewrite outcome_while. apply while_ext. intros y. apply OrderElevate_out.
Qed.
Lemma assign_out op fuel (s t : spline V) : outcome (assign_in (T := T) limit op fuel s t) =
  bind (elevate_all_64 (T := T) limit fuel (degrees t) s) (fun s => bind (elevate_all_64 (T := T) limit fuel (degrees s) t)
    (fun t => combine_assign op (number_of_control_points s) s t)).
Proof.
  unfold assign_in. rewrite outcome_then, elevate_all_out. apply bind_ext. intros x _. rewrite elevate_all_out.
  destruct (elevate_all_64 limit fuel (degrees x) t); try reflexivity. cbn [bind]. destruct (combine_assign op _ x a); reflexivity.
Qed.

Lemma repair (z : spline V) n : wf z -> fits64 (n_coeffs (degrees z)) -> n_coeffs (degrees z) <= limit ->
  UpdateDegrees_in (T := T) limit (recount z n) (degrees (recount z n)) = (z, Ok tt).
Proof.
  intros (Hd & Hn & HO & HC) HF HL. unfold UpdateDegrees_in, recount. cbn [degrees index_offsets control_points]. rewrite count_points_64_ok, w64_id by auto.
  destruct (Nat.ltb_spec limit (n_coeffs (degrees z))); [lia|]. rewrite UpdateIndexOffsets_64_ok, offsets_64_id by auto. f_equal.
  unfold resize. rewrite firstn_all2 by lia. replace (_ - _) with 0 by lia. cbn [repeat]. rewrite app_nil_r.
  destruct z as [a b c d]. cbn [degrees number_of_control_points index_offsets control_points] in *. congruence.
Qed.
End Out.

Lemma while_fuel {A} (c : A -> bool) (f : A -> A * res unit) n m : n <= m -> forall x y e, while_in n c f x = (y, e) -> e <> Diverge -> while_in m c f x = (y, e).
Proof.
  revert m. induction n; intros m Hm x y e H He; [injection H as <- <-; congruence|]. destruct m; [lia|]. cbn [while_in] in *. destruct (c x); [|exact H].
  destruct (f x) as (z & [u| | | | |]); cbn [then_] in *; auto. apply IHn; auto. lia.
Qed.
Lemma for_fuel {A} (f g : nat -> A -> A * res unit) n : (forall i x y e, f i x = (y, e) -> e <> Diverge -> g i x = (y, e)) ->
  forall lo x y e, for_in lo n f x = (y, e) -> e <> Diverge -> for_in lo n g x = (y, e).
Proof.
  intros Hfg. induction n; intros lo x y e H He; [exact H|]. cbn [for_in] in *. destruct (f lo x) as (z & r) eqn:E. destruct r as [u| | | | |]; cbn [then_] in H.
  all: try (injection H as <- <-; rewrite (Hfg _ _ _ _ E) by (discriminate || congruence); reflexivity).
  rewrite (Hfg _ _ _ _ E) by discriminate. cbn [then_]. apply IHn; auto.
Qed.
Lemma all_fuel (limit n m : nat) {T V : Type} {o : SOps T} {ov : VOps T V} ts (x y : spline V) e : n <= m ->
  elevate_all_in (T := T) limit n ts x = (y, e) -> e <> Diverge -> elevate_all_in (T := T) limit m ts x = (y, e).
Proof.
  intros Hm. unfold elevate_all_in. apply for_fuel. intros i z w r. destruct (get ts i); auto. apply while_fuel. exact Hm.
Qed.

Section Fail.
Context (limit : nat) {T V : Type} {o : SOps T} {ov : VOps T V} {F : SField T} {M : VMod T V}.
Context (a : spline V) (D : list nat) (HD : (Z.of_nat (n_coeffs D) < 2 ^ 31)%Z) (LD : length D = length (degrees a)).

(** [a] with some elevations done. *)
Definition J (x : spline V) : Prop :=
  wf x /\ Forall2 le (degrees a) (degrees x) /\ Forall2 le (degrees x) D /\ n_coeffs (degrees x) <= limit /\
  forall xs : list T, length xs = length (degrees a) -> Evaluate x xs = Evaluate a xs.
Definition fails (p : spline V * res unit) : Prop :=
  exists z k, p = (recount z (n_coeffs (upd_at k S (degrees z))), Throw) /\ J z /\ k < length (degrees z) /\ nth k (degrees z) 0 < nth k D 0 /\
    limit < n_coeffs (upd_at k S (degrees z)).

Lemma J_len x : J x -> length (degrees x) = length (degrees a).
Proof using. intros (_ & H & _). symmetry. apply F2_len. exact H. Qed.
Lemma step x k : J x -> k < length (degrees a) -> nth k (degrees x) 0 < nth k D 0 ->
  fails (OrderElevate_in (T := T) limit x k) \/
  exists y, OrderElevate_in (T := T) limit x k = (y, Ok tt) /\ J y /\ degrees y = upd_list (degrees x) k (nth k (degrees x) 0 + 1).
Proof using F M HD LD.
  intros Jx Hk HN. pose proof (J_len x Jx) as Lx. pose proof Jx as (Wx & Ax & Dx & Nx & Ex).
  assert (Hle : n_coeffs (upd_at k S (degrees x)) <= n_coeffs D).
  { rewrite upd_at_S. apply n_coeffs_mono. apply F2_upd; auto. lia. }
  destruct (Nat.lt_ge_cases limit (n_coeffs (upd_at k S (degrees x)))) as [HL|HL].
  - left. exists x, k. split; [|split; [exact Jx|]; split; [lia|]; auto]. unfold OrderElevate_in.
    rewrite (c108_elevate_limit T V o ov) by (auto; try lia; pose proof (n_coeffs_mono _ _ Dx); lia). f_equal. f_equal.
    pose proof Wx as (_ & Hn & _). rewrite Hn. rewrite upd_at_S, n_coeffs_upd by lia.
    assert (nth k (degrees x) 0 + 1 <= n_coeffs (degrees x)) by (apply n_coeffs_nth_le; lia). pose proof (n_coeffs_mono _ _ Dx).
    rewrite !w64_id; auto; try (unfold fits64; lia). rewrite w64_id by (unfold fits64; lia). rewrite w64_id by (unfold fits64; lia).
    rewrite upd_at_S, n_coeffs_upd in Hle by lia. unfold fits64. lia.
  - right. destruct (c108_elevate T V o ov limit x k Wx) as (_ & H). destruct (H F M) as (y & E & Wy & Dy & Ev); auto; [lia|lia|].
    exists y. unfold OrderElevate_in. rewrite E. split; [reflexivity|]. rewrite upd_at_S in Dy. split; [|exact Dy].
    split; [exact Wy|]. rewrite Dy. split; [|split; [|split]].
    + clear - Ax Lx Hk. revert k Lx Hk. induction Ax; intros [|k] L K; cbn in *; constructor; auto; try lia. apply IHAx; lia.
    + apply F2_upd; auto. lia.
    + rewrite <- upd_at_S. exact HL.
    + intros xs Hx. rewrite <- (Ex xs Hx). destruct (Ev xs ltac:(congruence)) as (E1 & (v & E2)).
      assert (Fx : fits64 (n_coeffs (degrees x))) by (pose proof (n_coeffs_mono _ _ Dx); unfold fits64; lia).
      assert (Ly : length (degrees y) = length xs) by (rewrite Dy, length_upd; congruence).
      rewrite (c09_evaluate T V o ov F M y xs Wy), (c09_evaluate T V o ov F M x xs Wx) by congruence.
      assert (Fy : fits64 (n_coeffs (degrees y))) by (rewrite Dy, <- upd_at_S; unfold fits64; lia).
      rewrite (Evaluate_64_same y xs _ Wy Fy (c09_evaluate T V o ov F M y xs Wy ltac:(congruence))) in E1.
      rewrite (Evaluate_64_same x xs _ Wx Fx (c09_evaluate T V o ov F M x xs Wx ltac:(congruence))) in E1. exact E1.
Qed.

Lemma to_in k t fuel : forall x, J x -> k < length (degrees a) -> t <= nth k D 0 -> t - nth k (degrees x) 0 < fuel ->
  fails (elevate_to_in (T := T) limit fuel t k x) \/
  exists y, elevate_to_in (T := T) limit fuel t k x = (y, Ok tt) /\ J y /\ degrees y = upd_list (degrees x) k (Nat.max t (nth k (degrees x) 0)).
Proof using F M HD LD.
  induction fuel; intros x Jx Hk Ht Hf.
  - lia.
  - unfold elevate_to_in. cbn [while_in]. destruct (Nat.ltb_spec (nth k (degrees x) 0) t) as [H|H].
    + destruct (step x k Jx Hk) as [(z & j & E & R)|(y & E & Jy & Dy)]; [lia| |].
      * left. exists z, j. rewrite E. cbn [then_]. auto.
      * rewrite E. cbn [then_]. pose proof (J_len x Jx) as Lx.
        assert (Ny : nth k (degrees y) 0 = nth k (degrees x) 0 + 1) by (rewrite Dy, nth_upd_same by lia; reflexivity).
        destruct (IHfuel y Jy Hk Ht) as [Hf'|(z & Ez & Jz & Dz)]; [lia|left; exact Hf'|right].
        exists z. split; [exact Ez|]. split; [exact Jz|]. rewrite Dz, Ny, Dy, upd_upd. f_equal. lia.
    + right. exists x. split; [reflexivity|]. split; [exact Jx|]. rewrite Nat.max_r by lia. symmetry. apply upd_list_same. rewrite (J_len x Jx). exact Hk.
Qed.
Lemma all_in ts fuel x : J x -> length ts = length D -> Forall2 le ts D -> list_max D < fuel ->
  fails (elevate_all_in (T := T) limit fuel ts x) \/
  exists y, elevate_all_in (T := T) limit fuel ts x = (y, Ok tt) /\ J y /\ degrees y = map2 Nat.max ts (degrees x).
Proof using F M HD LD.
  intros Jx Ht HF Hf. unfold elevate_all_in. pose proof (J_len x Jx) as Lx.
  assert (G : forall n lo y, lo + n = length (degrees a) -> J y -> (forall j, j < lo -> nth j (degrees y) 0 = Nat.max (nth j ts 0) (nth j (degrees x) 0)) ->
    (forall j, lo <= j -> nth j (degrees y) 0 = nth j (degrees x) 0) ->
    let p := for_in lo n (fun k x => match get ts k with Ok t => elevate_to_in (T := T) limit fuel t k x | e => failed x e end) y in
    fails p \/ exists z, p = (z, Ok tt) /\ J z /\ forall j, j < length (degrees a) -> nth j (degrees z) 0 = Nat.max (nth j ts 0) (nth j (degrees x) 0)).
  { induction n; intros lo y Hlo Jy H1 H2; cbn [for_in].
    - right. exists y. split; [reflexivity|]. split; [exact Jy|]. intros j Hj. apply H1. lia.
    - rewrite (get_ok 0) by lia. pose proof (J_len y Jy) as Ly.
      assert (Hm : nth lo ts 0 <= list_max D).
      { etransitivity; [apply (F2_nth _ _ lo HF)|]. assert (A := proj1 (list_max_le D (list_max D)) (le_n _)). rewrite Forall_forall in A. apply A. apply nth_In. lia. }
      destruct (to_in lo (nth lo ts 0) fuel y Jy) as [(z & j & E & R)|(z & E & Jz & Dz)]; [lia|apply (F2_nth _ _ lo HF)|lia| |].
      + left. exists z, j. rewrite E. cbn [then_]. auto.
      + rewrite E. cbn [then_]. apply IHn; [lia|exact Jz| |].
        * intros j Hj. rewrite Dz, nth_upd by lia. destruct (Nat.eqb_spec j lo) as [->|N]; [rewrite (H2 lo) by lia; reflexivity|apply H1; lia].
        * intros j Hj. rewrite Dz, nth_upd by lia. destruct (Nat.eqb_spec j lo); [lia|apply H2; lia]. }
  rewrite Lx. destruct (G (length (degrees a)) 0 x) as [H|(y & E & Jy & Dy)]; auto; [intros; lia|]. right. exists y. split; [exact E|]. split; [exact Jy|].
  apply (nth_ext _ _ 0 0); [pose proof (J_len y Jy); rewrite length_map2 by lia; lia|]. intros j Hj. rewrite (J_len y Jy) in Hj.
  rewrite Dy by auto. rewrite (nth_map2 _ _ _ _ 0 0) by lia. reflexivity.
Qed.
Lemma J_start : wf a -> Forall2 le (degrees a) D -> n_coeffs (degrees a) <= limit -> J a.
Proof using. intros W H1 H2. split; [exact W|]. split; [clear; induction (degrees a); constructor; auto|]. auto. Qed.
End Fail.
