(** Runs of the functions of ModelSize2.v that stay in range are the runs with unbounded sizes. *)
From Coq Require Import Arith Lia List ZArith NArith Bool.
From Verif Require Import Prelude Scalar Spec SpecSpline ModelBasis ModelPoint ModelSpline ModelSize ModelSize2 ProofIndex ProofSize.
Import ListNotations.

Lemma w64_mul_l a b : w64 (w64 a * b) = w64 (a * b).
Proof. rewrite Nat.mul_comm, w64_mul_r, Nat.mul_comm. reflexivity. Qed.
Lemma w64_add_l a b : w64 (w64 a + b) = w64 (a + b).
Proof. apply Nat2Z.inj. rewrite !w64_Z, !Nat2Z.inj_add, !w64_Z. apply Z.add_mod_idemp_l. discriminate. Qed.
Lemma w64_add_r a b : w64 (a + w64 b) = w64 (a + b).
Proof. rewrite Nat.add_comm, w64_add_l, Nat.add_comm. reflexivity. Qed.
Lemma w64_add_ll a b c : w64 (w64 a + b + c) = w64 (a + b + c).
Proof. rewrite <- !Nat.add_assoc, w64_add_l. reflexivity. Qed.
Global Hint Rewrite w64_add_ll w64_mul_l w64_mul_r w64_add_l w64_add_r w64_w64 : w64.
Lemma z64_id z : (0 <= z)%Z -> fits64 (Z.to_nat z) -> z64 z = Z.to_nat z.
Proof. unfold fits64, z64. intros. rewrite Z.mod_small by lia. reflexivity. Qed.
Lemma z64_w64 a n : z64 (a + Z.of_nat (w64 n)) = z64 (a + Z.of_nat n).
Proof. unfold z64. rewrite w64_Z. rewrite Z.add_mod_idemp_r by discriminate. reflexivity. Qed.

Lemma get_lt {A} (l : list A) i x : get l i = Ok x -> i < length l.
Proof. unfold get. intros H. apply nth_error_Some. destruct (nth_error l i); congruence. Qed.
Lemma set_lt {A} (l m : list A) i x : set l i x = Ok m -> i < length l /\ length m = length l.
Proof.
  intros H. apply set_inv in H. destruct H as (H & ->). rewrite length_upd. auto.
Qed.
Lemma get_w {A} (l : list A) i x : fits64 (length l) -> get l i = Ok x -> get l (w64 i) = Ok x.
Proof. intros HF E. rewrite w64_id; auto. apply get_lt in E. eapply fits64_le; [|exact HF]. lia. Qed.
Lemma set_w {A} (l m : list A) i x : fits64 (length l) -> set l i x = Ok m -> set l (w64 i) x = Ok m /\ fits64 (length m).
Proof. intros HF E. pose proof (set_lt _ _ _ _ E) as (H & H2). rewrite w64_id by (eapply fits64_le; [|exact HF]; lia). rewrite H2. auto. Qed.

Lemma for_down_refine {A} (I : A -> Prop) (f g : nat -> A -> res A) n : forall a r, I a ->
  (forall i x y, i < n -> I x -> f i x = Ok y -> g i x = Ok y /\ I y) ->
  for_down n f a = Ok r -> for_down n g a = Ok r /\ I r.
Proof.
  induction n as [|n IH]; intros a r Ha H E; cbn [for_down] in *; [injection E as <-; auto|].
  apply bind_ok in E. destruct E as (b & E1 & E2). destruct (H n a b ltac:(lia) Ha E1) as (G & Ib). rewrite G. cbn [bind].
  apply IH; auto.
Qed.
Lemma while_refine {A} (I : A -> Prop) c (f g : A -> res A) fuel : forall a r, I a ->
  (forall x y, I x -> c x = true -> f x = Ok y -> g x = Ok y /\ I y) ->
  while_ fuel c f a = Ok r -> while_ fuel c g a = Ok r /\ I r.
Proof.
  induction fuel as [|n IH]; intros a r Ha H E; cbn [while_] in *; [discriminate|].
  destruct (c a) eqn:C; [|injection E as <-; auto].
  apply bind_ok in E. destruct E as (b & E1 & E2). destruct (H a b Ha C E1) as (G & Ib). rewrite G. cbn [bind]. apply IH; auto.
Qed.

Lemma for_up_keep {A} (I : A -> Prop) (f : nat -> A -> res A) n lo a r : I a ->
  (forall i x y, lo <= i < lo + n -> I x -> f i x = Ok y -> I y) -> for_up lo n f a = Ok r -> I r.
Proof. intros Ha H E. eapply (for_up_refine I f f n lo a r Ha); auto. intros i x y Hi Ix Ey. split; auto. eapply H; eauto. Qed.
Lemma for_down_keep {A} (I : A -> Prop) (f : nat -> A -> res A) n a r : I a ->
  (forall i x y, i < n -> I x -> f i x = Ok y -> I y) -> for_down n f a = Ok r -> I r.
Proof. intros Ha H E. eapply (for_down_refine I f f n a r Ha); auto. intros i x y Hi Ix Ey. split; auto. eapply H; eauto. Qed.

(** The same with an invariant that depends on the counter. *)
Lemma for_up_pci2 {A} (I : nat -> A -> Prop) (f g : nat -> A -> res A) n : forall lo a r, I lo a ->
  (forall i x y, lo <= i < lo + n -> I i x -> f i x = Ok y -> g i x = Ok y /\ I (S i) y) ->
  for_up lo n f a = Ok r -> for_up lo n g a = Ok r /\ I (lo + n) r.
Proof.
  induction n as [|n IH]; intros lo a r Ha H E; cbn [for_up] in *; [injection E as <-; rewrite Nat.add_0_r; auto|].
  apply bind_ok in E. destruct E as (b & E1 & E2). destruct (H lo a b ltac:(lia) Ha E1) as (G & Ib). rewrite G. cbn [bind].
  replace (lo + S n) with (S lo + n) by lia. apply IH; auto. intros i x y Hi. apply H. lia.
Qed.

Section Gen.
Context {T V : Type} {o : SOps T} {ov : VOps T V}.

Lemma wf_degree (s : spline V) k p : wf s -> fits64 (n_coeffs (degrees s)) -> get (degrees s) k = Ok p -> fits64 (p + 1).
Proof.
  intros Hw HF E. eapply fits64_le; [|exact HF]. apply (get_inv 0) in E. destruct E as (L & <-).
  apply n_coeffs_nth_le; auto.
Qed.

Lemma wf_group (s : spline V) k p off : wf s -> fits64 (n_coeffs (degrees s)) -> get (degrees s) k = Ok p -> get (index_offsets s) k = Ok off ->
  fits64 (off * (p + 1)) /\ 0 < off.
Proof.
  intros (_ & _ & HO & _) HF E1 E2. apply (get_inv 0) in E1. destruct E1 as (L & <-). rewrite HO in E2. apply (get_inv 0) in E2. destruct E2 as (_ & <-).
  rewrite nth_offsets by auto. split; [|apply n_coeffs_pos].
  eapply fits64_le; [|exact HF]. etransitivity; [|apply (n_coeffs_firstn_le (degrees s) (S k))].
  rewrite (firstn_S_nth 0) by lia. rewrite n_coeffs_app, n_coeffs_cons. unfold n_coeffs at 3. simpl prod. nia.
Qed.

Lemma Evaluate_64_same (s : spline V) xs v : wf s -> fits64 (n_coeffs (degrees s)) -> Evaluate s xs = Ok v -> Evaluate_64 s xs = Ok v.
Proof.
  intros Hw HF E. unfold Evaluate, Evaluate_64 in *. apply bind_ok in E. destruct E as ((cps & n) & E1 & E2).
  assert (HL : fits64 (length (control_points s))) by (rewrite (proj2 (proj2 (proj2 Hw))); auto).
  edestruct (for_up_refine (fun st : list V * nat => fits64 (length (fst st)))) as (G & _); [| |exact E1|rewrite G; exact E2]; [exact HL|].
  clear n cps E1 E2. intros k (cps & n) (cps' & n') _ HI E. cbn [fst] in HI.
  apply bind_ok in E. destruct E as (x & E1 & E). rewrite E1. cbn [bind].
  apply bind_ok in E. destruct E as (p & E2 & E). rewrite E2. cbn [bind].
  apply bind_ok in E. destruct E as (off & E3 & E). rewrite E3. cbn [bind].
  pose proof (wf_degree s k p Hw HF E2) as Hp. destruct (wf_group s k p off Hw HF E2 E3) as (Hg & _). unfold div64. rewrite (w64_id (p + 1)) by auto.
  destruct (Nat.eqb_spec (p + 1) 0); [lia|]. cbn [bind].
  apply bind_ok in E. destruct E as (cps1 & E4 & E). injection E as <- <-.
  edestruct (for_up_refine (fun c : list V => fits64 (length c))) as (G & HI'); [| |exact E4|rewrite G; split; [reflexivity|exact HI']]; [exact HI|].
  intros id c c' _ HI1 E. cbv zeta.
  eapply (for_up_refine (fun c : list V => fits64 (length c))); [exact HI1| |exact E].
  intros i c1 c1' _ HI2 E'. eapply (for_up_refine (fun c : list V => fits64 (length c))); [exact HI2| |exact E'].
  intros j c2 c2' Hj HI3 E''. cbv beta zeta in *. rewrite (w64_id (off * (p + 1))) by auto. rewrite (w64_id (j + 1)) by (eapply fits64_le; [|exact Hp]; lia). autorewrite with w64.
  apply bind_ok in E''. destruct E'' as (a & A & E''). apply bind_ok in E''. destruct E'' as (b & B & E'').
  rewrite (get_w _ _ _ HI3 A), (get_w _ _ _ HI3 B). cbn [bind]. apply set_w; auto.
Qed.

Lemma SplitAtPosition_64_same (s : spline V) x dim l : wf s -> fits64 (n_coeffs (degrees s)) ->
  SplitAtPosition s x dim = Ok l -> SplitAtPosition_64 s x dim = Ok l.
Proof.
  intros Hw HF E. unfold SplitAtPosition, SplitAtPosition_64 in *. destruct (negb _); [discriminate|].
  assert (HL : fits64 (length (control_points s))) by (rewrite (proj2 (proj2 (proj2 Hw))); auto).
  apply bind_ok in E. destruct E as (p & E2 & E). rewrite E2. cbn [bind].
  apply bind_ok in E. destruct E as (off & E3 & E). rewrite E3. cbn [bind].
  pose proof (wf_degree s dim p Hw HF E2) as Hp. destruct (wf_group s dim p off Hw HF E2 E3) as (Hg & Ho). unfold div64, mod64.
  rewrite !(w64_id (p + 1)), !(w64_id (off * (p + 1))) by auto.
  destruct (Nat.eqb_spec (p + 1) 0); [lia|]. destruct (Nat.eqb_spec off 0); [lia|]. cbn [bind]. cbv zeta in *.
  apply bind_ok in E. destruct E as ((c1 & c2) & E4 & E).
  edestruct (for_up_refine (fun st : list V * list V => fits64 (length (fst st)) /\ fits64 (length (snd st)))) as (G & _); [| |exact E4|rewrite G; exact E]; [split; exact HL|].
  clear c1 c2 E E4. intros id st st' _ HI E. cbn [bind].
  eapply (for_up_refine (fun st : list V * list V => fits64 (length (fst st)) /\ fits64 (length (snd st)))); [exact HI| |exact E].
  clear st st' HI E. intros i (c1 & c2) (c1' & c2') Hi (HI1 & HI2) E. cbn [fst snd] in HI1, HI2.
  apply bind_ok in E. destruct E as (c3 & E4 & E).
  edestruct (for_down_refine (fun c : list V => fits64 (length c))) as (G & HI3); [exact HI1| |exact E4|rewrite G; cbn [bind]].
  { intros k c c' Hk HI5 E5. cbv beta zeta in *. autorewrite with w64.
    apply bind_ok in E5. destruct E5 as (a & A & E5). apply bind_ok in E5. destruct E5 as (b & B & E5).
    rewrite (get_w _ _ _ HI5 A), (get_w _ _ _ HI5 B). cbn [bind]. apply set_w; auto. }
  autorewrite with w64.
  apply bind_ok in E. destruct E as (y & E5 & E). rewrite (get_w _ _ _ HI3 E5). cbn [bind].
  apply bind_ok in E. destruct E as (c4 & E6 & E). destruct (set_w _ _ _ _ HI2 E6) as (G2 & HI4). rewrite G2. cbn [bind].
  injection E as <- <-. cbn [fst snd]. auto.
Qed.

Lemma SplitAtPosition_shape (s : spline V) x dim l : SplitAtPosition s x dim = Ok l -> exists c1 c2, l = [with_cps s c1; with_cps s c2] /\
  length c1 = length (control_points s) /\ length c2 = length (control_points s).
Proof.
  intros E. unfold SplitAtPosition in E. destruct (negb _); [discriminate|].
  apply bind_ok in E. destruct E as (p & E2 & E). apply bind_ok in E. destruct E as (off & E3 & E). cbv zeta in E.
  apply bind_ok in E. destruct E as ((c1 & c2) & E4 & E). injection E as <-. exists c1, c2. split; auto.
  refine (for_up_keep (fun st : list V * list V => length (fst st) = length (control_points s) /\ length (snd st) = length (control_points s)) _ _ _ _ _ _ _ E4); [split; reflexivity|].
  clear c1 c2 E4. intros id st st' _ HI E.
  refine (for_up_keep (fun st : list V * list V => length (fst st) = length (control_points s) /\ length (snd st) = length (control_points s)) _ _ _ _ _ HI _ E).
  clear st st' HI E. intros i (c1 & c2) (c1' & c2') Hi (HI1 & HI2) E. cbn [fst snd] in *.
  apply bind_ok in E. destruct E as (c3 & E4 & E).
  assert (HI3 : length c3 = length (control_points s)).
  { refine (for_down_keep (fun c : list V => length c = length (control_points s)) _ _ _ _ HI1 _ E4). intros k c c' Hk HI5 E5.
    apply bind_ok in E5. destruct E5 as (a & A & E5). apply bind_ok in E5. destruct E5 as (b & B & E5). apply set_lt in E5. lia. }
  apply bind_ok in E. destruct E as (y & E5 & E). apply bind_ok in E. destruct E as (c4 & E6 & E). injection E as <- <-. apply set_lt in E6. lia.
Qed.

Lemma SplitAtPositions_64_same (s : spline V) xs dim l : wf s -> fits64 (n_coeffs (degrees s)) ->
  SplitAtPositions s xs dim = Ok l -> SplitAtPositions_64 s xs dim = Ok l.
Proof.
  intros Hw HF E. unfold SplitAtPositions, SplitAtPositions_64 in *. destruct (negb _); [discriminate|]. destruct (_ =? 0); [exact E|].
  apply bind_ok in E. destruct E as (x0 & E1 & E). rewrite E1. cbn [bind].
  apply bind_ok in E. destruct E as (sp & E2 & E). rewrite (SplitAtPosition_64_same _ _ _ _ Hw HF E2). cbn [bind].
  apply bind_ok in E. destruct E as (x & E3 & E). rewrite E3. cbn [bind].
  apply bind_ok in E. destruct E as ((out & sp') & E4 & E).
  set (I := fun st : list (spline V) * list (spline V) => forall r, get (snd st) 1 = Ok r -> wf r /\ fits64 (n_coeffs (degrees r))).
  assert (K : forall r t x l, wf r -> fits64 (n_coeffs (degrees r)) -> SplitAtPosition r x dim = Ok l -> get l 1 = Ok t -> wf t /\ fits64 (n_coeffs (degrees t))).
  { intros r t y m Wr Fr Er Gt. apply SplitAtPosition_shape in Er. destruct Er as (c1 & c2 & -> & L1 & L2). injection Gt as <-. split; [|exact Fr].
    destruct Wr as (W1 & W2 & W3 & W4). unfold wf. cbn. rewrite L2. auto. }
  edestruct (for_up_refine I) as (G & _); [| |exact E4|rewrite G; cbn [bind]; exact E].
  - intros r Gr. eapply (K s r x0 sp); auto.
  - clear out sp' E E4. intros i (out & sp1) (out' & sp1') _ HI E. unfold I in HI. cbn [snd] in HI.
    apply bind_ok in E. destruct E as (y & A1 & E). rewrite A1. cbn [bind].
    apply bind_ok in E. destruct E as (y' & A2 & E). rewrite A2. cbn [bind].
    apply bind_ok in E. destruct E as (rel & A3 & E). rewrite A3. cbn [bind].
    apply bind_ok in E. destruct E as (rest & A4 & E). rewrite A4. cbn [bind]. destruct (HI rest A4) as (Wr & Fr).
    apply bind_ok in E. destruct E as (sp2 & A5 & E). rewrite (SplitAtPosition_64_same _ _ _ _ Wr Fr A5). cbn [bind].
    apply bind_ok in E. destruct E as (z & A6 & E). rewrite A6. cbn [bind]. injection E as <- <-. split; [reflexivity|].
    intros r Gr. cbn [snd] in Gr. eapply (K rest r rel sp2); auto.
Qed.

Lemma n_coeffs_upd degs : forall k p, k < length degs -> nth k degs 0 = p -> n_coeffs (upd_list degs k (p + 1)) = n_coeffs degs / (p + 1) * (p + 2).
Proof.
  intros k p Hk Hp. rewrite <- (firstn_skipn k degs) in Hp |- *.
  assert (E : exists l', skipn k degs = p :: l').
  { rewrite app_nth2 in Hp by (rewrite firstn_length; lia). rewrite firstn_length, Nat.min_l, Nat.sub_diag in Hp by lia.
    destruct (skipn k degs) as [|a l'] eqn:E; [|exists l'; cbn in Hp; congruence].
    apply (f_equal (@length nat)) in E. rewrite skipn_length in E. cbn in E. lia. }
  destruct E as (l' & E). rewrite E. clear Hp.
  assert (U : forall l, length l = k -> upd_list (l ++ p :: l') k (p + 1) = l ++ (p + 1) :: l').
  { clear. induction k; intros [|a l] H; try discriminate; auto. cbn. f_equal. apply IHk. auto. }
  rewrite U by (rewrite firstn_length; lia). rewrite !n_coeffs_app, !n_coeffs_cons.
  replace (n_coeffs (firstn k degs) * (S p * n_coeffs l')) with (n_coeffs (firstn k degs) * n_coeffs l' * (p + 1)) by ring.
  rewrite Nat.div_mul by lia. ring.
Qed.

Lemma wf_dvd degs k : k < length degs -> n_coeffs degs <= n_coeffs degs / (nth k degs 0 + 1) * (nth k degs 0 + 2).
Proof.
  intros Hk. rewrite <- (n_coeffs_upd degs k) by auto. clear. revert k. induction degs as [|a l IH]; intros [|k]; cbn [upd_list nth]; auto.
  - rewrite !n_coeffs_cons. apply Nat.mul_le_mono; lia.
  - rewrite !n_coeffs_cons. apply Nat.mul_le_mono; auto.
Qed.
Lemma get_z {A} (l : list A) z x : (0 <= z)%Z -> fits64 (length l) -> get l (Z.to_nat z) = Ok x -> get l (z64 z) = Ok x.
Proof. intros Hz HF E. rewrite z64_id; auto. apply get_lt in E. eapply fits64_le; [|exact HF]. lia. Qed.
Lemma u32_pos z : (0 <= u32 z)%Z.
Proof. apply Z.mod_pos_bound. reflexivity. Qed.

Lemma OrderElevate_shape (s r : spline V) k : wf s -> OrderElevate s k = Ok r ->
  wf r /\ k < length (degrees s) /\ degrees r = upd_list (degrees s) k (nth k (degrees s) 0 + 1).
Proof.
  intros Hw E. unfold OrderElevate in E. pose proof Hw as (Hd & Hn & HO & HL).
  apply bind_ok in E. destruct E as (p & E1 & E). pose proof (get_inv 0 _ _ _ E1) as (Hk & Hp).
  apply bind_ok in E. destruct E as (off & E2 & E). cbv zeta in E.
  apply bind_ok in E. destruct E as (u & E3 & E).
  apply bind_ok in E. destruct E as (degs' & E4 & E). apply set_inv in E4. destruct E4 as (_ & ->).
  apply bind_ok in E. destruct E as (f & E5 & E).
  apply bind_ok in E. destruct E as ((cps & gi) & E6 & E).
  assert (NE : upd_list (degrees s) k (p + 1) <> []).
  { intros Z. apply (f_equal (@length nat)) in Z. rewrite length_upd in Z. cbn in Z. lia. }
  rewrite (UpdateIndexOffsets_ok _ NE) in E. cbn [bind] in E. injection E as <-. cbn [degrees]. rewrite Hp.
  split; [|auto]. unfold wf. cbn [degrees number_of_control_points index_offsets control_points]. rewrite Hn, n_coeffs_upd by auto. repeat split; auto.
  set (I := fun st : list V * Z => length (fst st) = n_coeffs (degrees s) / (p + 1) * (p + 2)).
  assert (ST : forall n (F : nat -> Z) a b, I a -> for_down n (fun i '(cps, gi) => do x <- get cps (Z.to_nat (F i)); do cps <- set cps (Z.to_nat gi) x; Ok (cps, u32 (gi - 1))) a = Ok b -> I b).
  { intros n F a b Ia H. refine (for_down_keep I _ _ _ _ Ia _ H). intros i (c & g) (c' & g') _ Ic E.
    apply bind_ok in E. destruct E as (x & _ & E). apply bind_ok in E. destruct E as (c2 & E' & E). injection E as <- <-. apply set_lt in E'. unfold I in *. cbn [fst] in *. lia. }
  refine (for_down_keep I _ _ _ _ _ _ E6); [unfold I; cbn [fst]; rewrite length_resize, Hn; reflexivity|].
  intros g st st' _ Ist E.
  apply bind_ok in E. destruct E as (st1 & A1 & E). apply ST in A1; auto.
  apply bind_ok in E. destruct E as (st2 & A2 & E). apply ST in E; auto.
  refine (for_down_keep I _ _ _ _ A1 _ A2). intros q a b _ Ia E'. refine (for_down_keep I _ _ _ _ Ia _ E').
  intros i (c & g0) (c' & g') _ Ic E''.
  apply bind_ok in E''. destruct E'' as (x & _ & E''). apply bind_ok in E''. destruct E'' as (y & _ & E'').
  apply bind_ok in E''. destruct E'' as (c2 & E2' & E''). injection E'' as <- <-. apply set_lt in E2'. unfold I in *. cbn [fst] in *. lia.
Qed.

Lemma OrderElevate_64_same limit (s r : spline V) k : wf s -> OrderElevate s k = Ok r -> fits64 (n_coeffs (degrees r)) -> n_coeffs (degrees r) <= limit ->
  OrderElevate_64 limit s k = Ok r.
Proof.
  intros Hw E HF HLim. destruct (OrderElevate_shape s r k Hw E) as (Wr & Hk & Dr).
  pose proof Hw as (Hd & Hn & HO & HL). assert (E1 := get_ok 0 (degrees s) k Hk). set (p := nth k (degrees s) 0) in *.
  rewrite Dr, n_coeffs_upd in HF, HLim by auto.
  assert (Hle : n_coeffs (degrees s) <= n_coeffs (degrees s) / (p + 1) * (p + 2)).
  { pose proof (n_coeffs_pos (degrees s)). assert (D := wf_dvd). specialize (D (degrees s) k Hk). fold p in D. lia. }
  assert (HF0 : fits64 (n_coeffs (degrees s))) by (eapply fits64_le; eauto).
  unfold OrderElevate, OrderElevate_64 in *. rewrite E1 in *. cbn [bind] in *.
  apply bind_ok in E. destruct E as (off & E2 & E). rewrite E2. cbn [bind]. cbv zeta in *.
  pose proof (wf_degree s k p Hw HF0 E1) as Hp. destruct (wf_group s k p off Hw HF0 E1 E2) as (Hg & Ho). unfold div64.
  rewrite !(w64_id (p + 1)), !(w64_id (off * (p + 1))) by auto.
  destruct (Nat.eqb_spec (p + 1) 0); [lia|]. cbn [bind]. rewrite w64_mul_r.
  apply bind_ok in E. destruct E as (u & E3 & E). rewrite E3. cbn [bind].
  rewrite Hn in *. rewrite (w64_id (_ * (p + 2))) by auto. destruct (Nat.ltb_spec limit (n_coeffs (degrees s) / (p + 1) * (p + 2))); [lia|].
  apply bind_ok in E. destruct E as (degs' & E4 & E). rewrite E4. cbn [bind].
  apply bind_ok in E. destruct E as (f & E5 & E). rewrite E5. cbn [bind].
  apply bind_ok in E. destruct E as ((cps & gi) & E6 & E).
  assert (OE : UpdateIndexOffsets_64 degs' = UpdateIndexOffsets_ degs').
  { apply set_inv in E4. destruct E4 as (_ & ->).
    assert (NE : upd_list (degrees s) k (p + 1) <> []).
    { intros Z. apply (f_equal (@length nat)) in Z. rewrite length_upd in Z. cbn in Z. lia. }
    rewrite UpdateIndexOffsets_64_ok, UpdateIndexOffsets_ok by auto. f_equal. apply offsets_64_id. rewrite n_coeffs_upd by auto. exact HF. }
  rewrite OE. replace (Z.of_nat (off * (p + 1))) with (Z.of_nat off * (Z.of_nat p + 1))%Z by lia.
  set (I := fun st : list V * Z => fits64 (length (fst st))).
  edestruct (for_down_refine I) as (G & _); [| |exact E6|rewrite G; cbn [bind]; exact E].
  { unfold I. cbn [fst]. rewrite length_resize. exact HF. }
  clear cps gi E E6. intros g st st' _ Ist E.
  apply bind_ok in E. destruct E as (st1 & A1 & E).
  edestruct (for_down_refine I) as (G & I1); [exact Ist| |exact A1|rewrite G; cbn [bind]; clear G].
  { intros i (c & gi) (c' & gi') _ Ic E'. unfold I in Ic. cbn [fst] in Ic.
    apply bind_ok in E'. destruct E' as (x & Ex & E'). rewrite z64_w64. rewrite (get_z c _ x); [cbn [bind]| |exact Ic|].
    - split; [exact E'|]. apply bind_ok in E'. destruct E' as (c2 & E2' & E'). injection E' as <- <-. apply set_lt in E2'. unfold I. cbn [fst]. destruct E2' as (_ & ->). exact Ic.
    - pose proof (u32_pos (u32 (Z.of_nat g * u32 (Z.of_nat off * (Z.of_nat p + 1))) + Z.of_nat i)). lia.
    - rewrite <- Ex. f_equal. f_equal. lia. }
  apply bind_ok in E. destruct E as (st2 & A2 & E).
  edestruct (for_down_refine I) as (G & I2); [exact I1| |exact A2|rewrite G; cbn [bind]; clear G].
  { intros q a b _ Ia E'. refine (for_down_refine I _ _ _ _ _ Ia _ E').
    intros i (c & gi) (c' & gi') _ Ic E''. unfold I in Ic. cbn [fst] in Ic. cbv zeta in *.
    assert (U := u32_pos (u32 (Z.of_nat g * u32 (Z.of_nat off * (Z.of_nat p + 1))) + Z.of_nat i)).
    apply bind_ok in E''. destruct E'' as (x & Ex & E''). rewrite z64_w64. rewrite (get_z c _ x); [cbn [bind]|lia|exact Ic|rewrite <- Ex; f_equal; f_equal; lia].
    apply bind_ok in E''. destruct E'' as (y & Ey & E''). rewrite z64_w64. rewrite (get_z c _ y); [cbn [bind]|lia|exact Ic|rewrite <- Ey; f_equal; f_equal; f_equal; nia].
    split; [exact E''|]. apply bind_ok in E''. destruct E'' as (c2 & E2' & E''). injection E'' as <- <-. apply set_lt in E2'. unfold I. cbn [fst]. destruct E2' as (_ & ->). exact Ic. }
  refine (for_down_refine I _ _ _ _ _ I2 _ E).
  intros i (c & gi) (c' & gi') _ Ic E'. split; [exact E'|]. unfold I in Ic. cbn [fst] in Ic.
  apply bind_ok in E'. destruct E' as (x & Ex & E'). apply bind_ok in E'. destruct E' as (c2 & E2' & E'). injection E' as <- <-. apply set_lt in E2'. unfold I. cbn [fst]. destruct E2' as (_ & ->). exact Ic.
Qed.

Lemma n_coeffs_mono l m : Forall2 le l m -> n_coeffs l <= n_coeffs m.
Proof. induction 1; auto. rewrite !n_coeffs_cons. apply Nat.mul_le_mono; lia. Qed.
Lemma F2_upd l m k : Forall2 le l m -> nth k l 0 + 1 <= nth k m 0 -> Forall2 le (upd_list l k (nth k l 0 + 1)) m.
Proof.
  intros H. revert k. induction H as [|a b l m Hab H IH]; intros k Hk; [destruct k; constructor|].
  destruct k; cbn [upd_list nth] in *; constructor; auto.
Qed.

Section Sum.
Context (limit : nat) (M : list nat) (HF : fits64 (n_coeffs M)) (HLim : n_coeffs M <= limit).
Let I (x : spline V) : Prop := wf x /\ Forall2 le (degrees x) M.
Lemma elevate_step_64 k (x y : spline V) : I x -> nth k (degrees x) 0 + 1 <= nth k M 0 -> OrderElevate x k = Ok y -> OrderElevate_64 limit x k = Ok y /\ I y.
Proof using HF HLim.
  intros (Wx & Lx) Hk E. destruct (OrderElevate_shape x y k Wx E) as (Wy & Lk & Dy).
  assert (Ly : Forall2 le (degrees y) M) by (rewrite Dy; apply F2_upd; auto). pose proof (n_coeffs_mono _ _ Ly) as Q.
  split; [|split; auto]. apply OrderElevate_64_same; auto; [eapply fits64_le; eauto|lia].
Qed.
Lemma elevate_to_64_same fuel t k (x y : spline V) : I x -> t <= nth k M 0 -> elevate_to fuel t k x = Ok y -> elevate_to_64 limit fuel t k x = Ok y /\ I y.
Proof using HF HLim.
  intros Hx Ht E. refine (while_refine I _ _ _ _ _ _ Hx _ E). intros a b Ia C F. apply Nat.ltb_lt in C. apply elevate_step_64; auto. lia.
Qed.
Lemma elevate_all_64_same fuel ts (x y : spline V) : I x -> Forall2 le ts M -> elevate_all fuel ts x = Ok y -> elevate_all_64 limit fuel ts x = Ok y /\ I y.
Proof using HF HLim.
  intros Hx Ht E. refine (for_up_refine I _ _ _ _ _ _ Hx _ E). intros k a b _ Ia F.
  apply bind_ok in F. destruct F as (t & F1 & F). rewrite F1. cbn [bind]. apply elevate_to_64_same; auto.
  apply (get_inv 0) in F1. destruct F1 as (L & <-). clear - Ht L. revert k L. induction Ht; intros [|k] L; cbn in *; try lia. apply IHHt. lia.
Qed.
Lemma construct_64 (s : spline V) : I s -> Spline_deg_points_64 (degrees s) (control_points s) = Ok s /\ Spline_deg_points (degrees s) (control_points s) = Ok s.
Proof using HF.
  intros ((Hd & Hn & HO & HL) & Ls). assert (F : fits64 (n_coeffs (degrees s))) by (eapply fits64_le; [apply n_coeffs_mono; eauto|auto]).
  split.
  - unfold Spline_deg_points_64. rewrite count_points_64_ok. cbn [bind]. rewrite UpdateIndexOffsets_64_ok, offsets_64_id, w64_id by auto. cbn [bind].
    rewrite HL, Nat.eqb_refl. cbn [assert_ bind]. destruct s as [da na oa ca]; cbn [degrees number_of_control_points index_offsets control_points] in *. congruence.
  - rewrite Spline_deg_points_ok by auto. destruct s as [da na oa ca]; cbn [degrees number_of_control_points index_offsets control_points] in *. unfold mk. congruence.
Qed.
Lemma spline_add_rec_64_same depth : forall fuel (s t r : spline V), I s -> I t -> spline_add_rec depth fuel s t = Ok r -> spline_add_rec_64 limit depth fuel s t = Ok r.
Proof using HF HLim.
  induction depth as [|depth IH]; intros fuel s t r Is It E; [discriminate|]. cbn [spline_add_rec spline_add_rec_64] in *.
  destruct (construct_64 s Is) as (C1 & C2). rewrite C1. rewrite C2 in E. cbn [bind] in *.
  apply bind_ok in E. destruct E as (b & E1 & E). rewrite E1. cbn [bind].
  apply bind_ok in E. destruct E as (s' & E2 & E). destruct (elevate_all_64_same _ _ _ _ Is (proj2 It) E2) as (G & Is'). rewrite G. cbn [bind].
  destruct (negb b); [exact E|]. apply IH; auto.
Qed.
Lemma assign_64_same op fuel (s t r : spline V) : I s -> I t ->
  (do s <- elevate_all fuel (degrees t) s; do t <- elevate_all fuel (degrees s) t; combine_assign op (number_of_control_points s) s t) = Ok r ->
  (do s <- elevate_all_64 limit fuel (degrees t) s; do t <- elevate_all_64 limit fuel (degrees s) t; combine_assign op (number_of_control_points s) s t) = Ok r.
Proof using HF HLim.
  intros Is It E. apply bind_ok in E. destruct E as (s' & E2 & E). destruct (elevate_all_64_same _ _ _ _ Is (proj2 It) E2) as (G & Is'). rewrite G. cbn [bind].
  apply bind_ok in E. destruct E as (t' & E3 & E). destruct (elevate_all_64_same _ _ _ _ It (proj2 Is') E3) as (G' & It'). rewrite G'. cbn [bind]. exact E.
Qed.
Lemma while_true {A} fuel (f : A -> res A) : forall a r, while_ fuel (fun _ => true) f a <> Ok r.
Proof. induction fuel; intros a r H; cbn [while_] in H; [discriminate|]. apply bind_ok in H. destruct H as (b & _ & H). eapply IHfuel; eauto. Qed.
Lemma spline_sub_64_same fuel (s t r : spline V) : I s -> I t -> spline_sub fuel s t = Ok r -> spline_sub_64 limit fuel s t = Ok r.
Proof using HF HLim.
  intros Is It E. unfold spline_sub, spline_sub_64 in *. destruct (construct_64 s Is) as (C1 & C2). rewrite C1. rewrite C2 in E. cbn [bind] in *.
  apply bind_ok in E. destruct E as (s' & E2 & E).
  edestruct (for_up_refine (fun _ : spline V => True)) as (G & _); [exact Logic.I| |exact E2|rewrite G; cbn [bind]].
  { intros k a b _ _ F. apply bind_ok in F. destruct F as (q & F1 & F). rewrite F1. cbn [bind]. apply bind_ok in F. destruct F as (p & F2 & F). rewrite F2. cbn [bind].
    split; [|exact Logic.I]. destruct (p <? q) eqn:C; [exfalso; eapply while_true; exact F|]. destruct fuel; [discriminate|]. cbn [while_] in *. exact F. }
  apply bind_ok in E. destruct E as (t' & E3 & E). destruct (elevate_all_64_same _ _ _ _ It (proj2 Is) E3) as (G' & It'). rewrite G'. cbn [bind]. exact E.
Qed.
End Sum.

Lemma multi_index_64_same nd i : nd <> [] -> fits64 (n_coeffs nd) -> multi_index_of_64 nd i = multi_index_of nd i.
Proof.
  intros Hn HF. unfold multi_index_of_64, multi_index_of.
  assert (P : forall k, k < length nd -> fits64 (nth k nd 0 + 1)) by (intros k Hk; eapply fits64_le; [apply n_coeffs_nth_le; eauto|auto]).
  assert (0 < length nd) by (destruct nd; [congruence|cbn; lia]). rewrite (get_ok 0) by auto. cbn [bind]. unfold mod64 at 1. rewrite w64_id by auto.
  destruct (Nat.eqb_spec (nth 0 nd 0 + 1) 0); [lia|]. cbn [bind]. rewrite set_ok by (rewrite repeat_length; auto). cbn [bind].
  f_equal. apply for_up_ext. intros k (mi & gid) Hk. rewrite !(get_ok 0) by lia. cbn [bind]. unfold div64, mod64. rewrite !w64_id by (apply P; lia).
  destruct (Nat.eqb_spec (nth (k - 1) nd 0 + 1) 0); [lia|]. destruct (Nat.eqb_spec (nth k nd 0 + 1) 0); [lia|]. reflexivity.
Qed.

Lemma position_ge degs : forall idx k, length idx = length degs -> nth k idx 0 <= position degs idx.
Proof.
  induction degs as [|p degs IH]; intros [|a idx] k H; try discriminate; [destruct k; auto|]. cbn [position].
  destruct k; cbn [nth]; [lia|]. specialize (IH idx k ltac:(cbn in H; lia)). nia.
Qed.
Lemma multi_index_length nd i mi : multi_index_of nd i = Ok mi -> length mi = length nd.
Proof.
  intros E. unfold multi_index_of in E. apply bind_ok in E. destruct E as (p & _ & E). apply bind_ok in E. destruct E as (m & E1 & E).
  apply bind_ok in E. destruct E as ((m' & g) & E2 & E). injection E as <-. apply set_lt in E1. rewrite repeat_length in E1.
  refine (for_up_keep (fun st : list nat * nat => length (fst st) = length nd) _ _ _ _ _ _ _ E2); [cbn; lia|].
  intros k (c & g1) (c' & g2) _ Ic F. apply bind_ok in F. destruct F as (? & _ & F). apply bind_ok in F. destruct F as (? & _ & F).
  apply bind_ok in F. destruct F as (c2 & F2 & F). injection F as <- <-. apply set_lt in F2. cbn [fst] in *. lia.
Qed.
Lemma GlobalToLocal_64_get {A} (s : spline V) (l : list A) idx i x : fits64 (length l) -> GlobalToLocalIndex s idx = Ok i -> get l i = Ok x -> GlobalToLocalIndex_64 s idx = Ok i.
Proof. intros HF E G. apply GlobalToLocal_64_same; auto. apply get_lt in G. eapply fits64_le; [|exact HF]. lia. Qed.

Lemma Spline_deg_64_same limit degs : degs <> [] -> fits64 (n_coeffs degs) -> n_coeffs degs <= limit -> Spline_deg_64 limit degs = Spline_deg (V := V) degs.
Proof.
  intros Hn HF HL. rewrite Spline_deg_ok by auto. unfold Spline_deg_64. rewrite count_points_64_ok. cbn [bind]. rewrite w64_id by auto.
  destruct (Nat.ltb_spec limit (n_coeffs degs)); [lia|]. rewrite UpdateIndexOffsets_64_ok, offsets_64_id by auto. reflexivity.
Qed.

Lemma F2_len (l m : list nat) : Forall2 le l m -> length l = length m.
Proof. induction 1; cbn; congruence. Qed.
Lemma F2_nth l m k : Forall2 le l m -> nth k l 0 <= nth k m 0.
Proof. intros H. revert k. induction H; intros [|k]; cbn [nth]; auto. Qed.
Lemma F2_upd_le l m k q : Forall2 le l m -> q <= nth k l 0 -> Forall2 le (upd_list l k q) m.
Proof.
  intros H. revert k. induction H as [|a b l m Hab H IH]; intros k Hk; [destruct k; constructor|].
  destruct k; cbn [upd_list nth] in *; constructor; auto. lia.
Qed.

Lemma DerivativeWRT_64_same limit MAXB (s r : spline V) ks : MAXB <= 68 -> wf s -> fits64 (n_coeffs (degrees s)) -> n_coeffs (degrees s) <= limit ->
  DerivativeWRT MAXB s ks = Ok r -> DerivativeWRT_64 limit MAXB s ks = Ok r.
Proof.
  intros HB Hw HF HLim E. unfold DerivativeWRT, DerivativeWRT_64 in *. pose proof Hw as (Hd & Hn & HO & HL).
  apply bind_ok in E. destruct E as ((nd & cps) & E1 & E).
  set (I := fun st : list nat * list V => Forall2 le (fst st) (degrees s) /\ fits64 (length (snd st))).
  assert (ND : forall l, Forall2 le l (degrees s) -> l <> [] /\ length l = length (degrees s) /\ fits64 (n_coeffs l) /\ n_coeffs l <= limit).
  { intros l Hl. pose proof (n_coeffs_mono _ _ Hl) as Q. pose proof (F2_len _ _ Hl) as Ql.
    split; [intros ->; cbn in Ql; destruct (degrees s); [congruence|discriminate]|]. split; [auto|]. split; [eapply fits64_le; eauto|lia]. }
  edestruct (for_up_refine I) as (G & Ind); [| |exact E1|rewrite G; clear G; cbn [bind]].
  { split; cbn [fst snd]; [clear; induction (degrees s); constructor; auto|rewrite HL; auto]. }
  { clear nd cps E E1. intros k (nd & cps) (nd' & cps') Hk (I1 & I2) E. cbn [fst snd] in I1, I2.
    apply bind_ok in E. destruct E as (m & E1 & E). rewrite E1. cbn [bind].
    destruct (Nat.eqb_spec m 0) as [->|Hm]; [injection E as <- <-; split; [reflexivity|split; auto]|].
    apply bind_ok in E. destruct E as (q & E2 & E). rewrite E2. cbn [bind]. apply (get_inv 0) in E2. destruct E2 as (Lq & Eq).
    apply bind_ok in E. destruct E as (u & Eu & E). assert (Hmq : m <= q) by (destruct (Nat.ltb_spec q m); [discriminate|auto]). clear u Eu.
    destruct (ND nd I1) as (N1 & N2 & N3 & N4).
    assert (Fq : fits64 q).
    { eapply fits64_le; [|exact N3]. rewrite <- Eq. pose proof (n_coeffs_nth_le nd k Lq). lia. }
    rewrite w64_sub_id by auto.
    apply bind_ok in E. destruct E as (nd1 & E3 & E). rewrite E3. cbn [bind].
    apply bind_ok in E. destruct E as (p & E4 & E). rewrite E4. cbn [bind]. pose proof (wf_degree s k p Hw HF E4) as Hp.
    apply (get_inv 0) in E4. destruct E4 as (_ & Ep).
    assert (Hqp : q <= p) by (rewrite <- Eq, <- Ep; apply F2_nth; auto).
    apply bind_ok in E. destruct E as (f & E5 & E).
    edestruct (for_up_refine (fun _ : T => True)) as (G & _); [exact Logic.I| |exact E5|rewrite G; clear G; cbn [bind]].
    { intros i a b Hi _ F. split; [|exact Logic.I]. rewrite <- F. rewrite w64_sub_id; [reflexivity|lia|]. eapply fits64_le; [|exact Hp]. lia. }
    assert (I1' : Forall2 le nd1 (degrees s)) by (apply set_inv in E3; destruct E3 as (_ & ->); apply F2_upd_le; auto; lia).
    destruct (ND nd1 I1') as (M1 & M2 & M3 & M4).
    unfold count_points_nd in E. rewrite count_points_ok in E. rewrite count_points_64_ok, w64_id by auto. cbn [bind] in *.
    apply bind_ok in E. destruct E as (c1 & E6 & E). injection E as <- <-.
    edestruct (for_up_refine (fun c : list V => fits64 (length c))) as (G & HI'); [| |exact E6|rewrite G; clear G; cbn [bind]; split; [reflexivity|split; auto]]; [exact I2|].
    clear c1 E6. intros i c c' Hi Ic E. cbv beta. rewrite multi_index_64_same by auto.
    apply bind_ok in E. destruct E as (mi & E6 & E). rewrite E6. cbn [bind]. pose proof (multi_index_length _ _ _ E6) as Lmi.
    apply bind_ok in E. destruct E as (ix & E7 & E).
    apply bind_ok in E. destruct E as ((c1 & mi1) & E8 & E). apply bind_ok in E. destruct E as (y & E9 & E).
    set (J := fun st : list V * list nat => length (fst st) = length c /\ length (snd st) = length (degrees s)).
    assert (J1 : J (c1, mi1)).
    { refine (for_up_keep J _ _ _ _ _ _ _ E8); [split; cbn [fst snd]; lia|]. intros j (c2 & mi2) (c2' & mi2') _ (K1 & K2) F. cbn [fst snd] in *.
      apply bind_ok in F. destruct F as (? & _ & F). apply bind_ok in F. destruct F as (? & F1 & F). apply bind_ok in F. destruct F as (? & _ & F).
      apply bind_ok in F. destruct F as (? & _ & F). apply bind_ok in F. destruct F as (? & _ & F). apply bind_ok in F. destruct F as (? & _ & F).
      apply bind_ok in F. destruct F as (? & F2 & F). injection F as <- <-. apply set_lt in F1, F2. split; cbn [fst snd]; lia. }
    destruct J1 as (J1 & _). cbn [fst] in J1. assert (Fc1 : fits64 (length c1)) by (rewrite J1; auto).
    rewrite (GlobalToLocal_64_get s c1 mi ix y Fc1 E7 E9). cbn [bind]. clear Fc1.
    edestruct (for_up_refine J) as (G & _); [| |exact E8|rewrite G; cbn [bind]; rewrite E9; cbn [bind]; split; [exact E|]; apply set_lt in E; destruct E as (_ & ->); rewrite J1; exact Ic];
      [split; cbn [fst snd]; lia|]. clear J1.
    clear E E9 E8 mi1 c1. intros j (c1 & mi1) (c1' & mi1') Hj (J1 & J2) E. cbn [fst snd] in J1, J2.
    assert (Fc1 : fits64 (length c1)) by (rewrite J1; auto).
    apply bind_ok in E. destruct E as (mm & F1 & E). rewrite F1. cbn [bind].
    apply bind_ok in E. destruct E as (mi2 & F2 & E). pose proof (set_inv _ _ _ _ F2) as (L2 & E2'). assert (Lm2 : length mi2 = length (degrees s)) by (rewrite E2', length_upd; auto).
    apply bind_ok in E. destruct E as (b & F3 & E).
    apply bind_ok in E. destruct E as (gi & F4 & E). apply bind_ok in E. destruct E as (x & F5 & E).
    assert (W : w64 (mm + 1) = mm + 1).
    { apply w64_id. eapply fits64_le; [|exact Fc1]. apply get_lt in F5. rewrite GlobalToLocal_ok in F4 by auto. injection F4 as <-.
      pose proof (position_ge (degrees s) mi2 k Lm2) as P. rewrite E2' in P at 1. rewrite nth_upd, Nat.eqb_refl in P by auto. lia. }
    rewrite W, F2. cbn [bind]. rewrite (proj2 (choose_64_same _ _ _ _ HB F3)). cbn [bind]. rewrite (GlobalToLocal_64_get s c1 mi2 gi x Fc1 F4 F5). cbn [bind]. rewrite F5. cbn [bind].
    split; [exact E|]. apply bind_ok in E. destruct E as (y1 & _ & E). apply bind_ok in E. destruct E as (c2 & F6 & E). injection E as <- <-. apply set_lt in F6. split; cbn [fst snd]; lia. }
  destruct Ind as (I1 & I2). cbn [fst snd] in I1, I2. destruct (ND nd I1) as (N1 & N2 & N3 & N4). rewrite Spline_deg_64_same by auto.
  apply bind_ok in E. destruct E as (dv & E2 & E). rewrite E2. cbn [bind].
  assert (Wd : wf dv /\ degrees dv = nd).
  { rewrite Spline_deg_ok in E2 by auto. injection E2 as <-. split; [|reflexivity]. unfold wf, mk. cbn [degrees number_of_control_points index_offsets control_points]. rewrite repeat_length. auto. }
  destruct Wd as (Wd & Dd).
  apply bind_ok in E. destruct E as (dc & E3 & E).
  edestruct (for_up_refine (fun _ : list V => True)) as (G & _); [exact Logic.I| |exact E3|rewrite G; cbn [bind]; exact E].
  intros i a b _ _ F. split; [|exact Logic.I]. rewrite LocalToGlobal_64_same by (auto; rewrite Dd; auto).
  apply bind_ok in F. destruct F as (mi & F1 & F). rewrite F1. cbn [bind].
  apply bind_ok in F. destruct F as (gi & F2 & F). apply bind_ok in F. destruct F as (x & F3 & F).
  rewrite (GlobalToLocal_64_get s cps mi gi x I2 F2 F3). cbn [bind]. rewrite F3. exact F.
Qed.
End Gen.
