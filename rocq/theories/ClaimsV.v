(** Claims about laws between operations: sums, products, powers. *)
From Coq Require Import Arith Lia List ZArith NArith Bool Ring Field.
From Verif Require Import Prelude Scalar Spec SpecSpline Sums Order Coord ModelBasis ModelSpline ModelPoint ModelRational
  ProofIndex ProofBasis ProofEval ProofElevate ProofUnique ClaimsA ProofArith ClaimsB ProofCube ClaimsC
  ProofMul ProofSplit ClaimsD ProofCompose ClaimsE ProofLaws.
Import ListNotations.
Local Open Scope nat_scope.

Lemma map2_max_comm A : forall B, map2 Nat.max A B = map2 Nat.max B A.
Proof. induction A as [|a A IH]; intros [|b B]; simpl; auto. f_equal; [apply Nat.max_comm|auto]. Qed.
Lemma map2_max_assoc A : forall B C, map2 Nat.max (map2 Nat.max A B) C = map2 Nat.max A (map2 Nat.max B C).
Proof. induction A as [|a A IH]; intros [|b B] [|c C]; simpl; auto. f_equal; [symmetry; apply Nat.max_assoc|auto]. Qed.
Lemma map2_max_same A : map2 Nat.max A A = A.
Proof. induction A; simpl; f_equal; auto. apply Nat.max_id. Qed.
Lemma map2_add_comm A : forall B, map2 Nat.add A B = map2 Nat.add B A.
Proof. induction A as [|a A IH]; intros [|b B]; simpl; auto. f_equal; [apply Nat.add_comm|auto]. Qed.
Lemma map2_add_assoc A : forall B C, map2 Nat.add (map2 Nat.add A B) C = map2 Nat.add A (map2 Nat.add B C).
Proof. induction A as [|a A IH]; intros [|b B] [|c C]; simpl; auto. f_equal; [symmetry; apply Nat.add_assoc|auto]. Qed.
Lemma map2_add_max A : forall B C, length B = length A -> length C = length A ->
  map2 Nat.add (map2 Nat.max A B) C = map2 Nat.max (map2 Nat.add A C) (map2 Nat.add B C).
Proof. induction A as [|a A IH]; intros [|b B] [|c C] H H'; try discriminate; simpl; auto. f_equal; [lia|apply IH; simpl in *; lia]. Qed.
Lemma map_mul_mul m n D : map (Nat.mul n) (map (Nat.mul m) D) = map (Nat.mul (m * n)) D.
Proof. rewrite map_map. apply map_ext. intros. lia. Qed.
Lemma map_mul_add n A : forall B, map (Nat.mul n) (map2 Nat.add A B) = map2 Nat.add (map (Nat.mul n) A) (map (Nat.mul n) B).
Proof. induction A as [|a A IH]; intros [|b B]; auto. cbn [map map2]. rewrite IH. f_equal. lia. Qed.
Lemma map2_add_zeros D : map2 Nat.add (repeat 0 (length D)) D = D.
Proof. induction D; simpl; f_equal; auto. Qed.

Lemma max_le_l A : forall B, length B = length A -> Forall2 le A (map2 Nat.max A B).
Proof. induction A as [|a A IH]; intros [|b B] H; try discriminate; simpl; constructor; [lia|]. apply IH. simpl in H. lia. Qed.
Lemma add_le_l A : forall B, length B = length A -> Forall2 le A (map2 Nat.add A B).
Proof. induction A as [|a A IH]; intros [|b B] H; try discriminate; simpl; constructor; [lia|]. apply IH. simpl in H. lia. Qed.
Lemma Forall_le_lt m A B : Forall2 le A B -> Forall (fun p => p < m) B -> Forall (fun p => p < m) A.
Proof. induction 1; intros HF; constructor; inversion HF; subst; [lia|auto]. Qed.
Lemma size_le A B : Forall2 le A B -> (Z.of_nat (n_coeffs B) < 2 ^ 31)%Z -> (Z.of_nat (n_coeffs A) < 2 ^ 31)%Z.
Proof. intros H. apply n_coeffs_mono in H. lia. Qed.
Lemma map2_le A A' B B' f : (forall a a' b b' : nat, a <= a' -> b <= b' -> f a b <= f a' b') ->
  Forall2 le A A' -> Forall2 le B B' -> Forall2 le (map2 f A B) (map2 f A' B').
Proof. intros Hf HA. revert B B'. induction HA; intros B B' HB; simpl; [constructor|]. destruct HB; constructor; auto. Qed.
Lemma max_lt m A : forall B, Forall (fun p => p < m) A -> Forall (fun p => p < m) B -> Forall (fun p => p < m) (map2 Nat.max A B).
Proof. induction A; intros [|b B] HA HB; simpl; constructor; inversion HA; inversion HB; subst; [lia|auto]. Qed.
Lemma len_max {A B : list nat} : length B = length A -> length (map2 Nat.max A B) = length A.
Proof. intros. apply length_map2. auto. Qed.

Lemma vopp_vopp {T V} {o : SOps T} {ov : VOps T V} {M : VMod T V} (a : V) : vopp (vopp a) = a.
Proof.
  rewrite <- (vm_0 (S := T) (vopp (vopp a))), <- (vm_opp (S := T) a), <- (vm_assoc (S := T)), (vm_opp (S := T)), (vm_comm (S := T)).
  apply vm_0.
Qed.

Lemma c74_add_comm : forall (T V : Type) (o : SOps T) (ov : VOps T V) (F : SField T) (M : VMod T V)
  (a b : spline V), wf a -> wf b -> length (degrees a) = length (degrees b) ->
  (Z.of_nat (n_coeffs (map2 Nat.max (degrees a) (degrees b))) < 2 ^ 31)%Z ->
  exists r, returns (fun fuel => spline_add fuel a b) r /\ returns (fun fuel => spline_add fuel b a) r.
Proof.
  intros T V o ov F M a b Ha Hb HL HS.
  destruct (add_isv a b _ _ _ _ (isv_self a Ha) (isv_self b Hb) HL HS) as (r & E & Hr).
  destruct (add_isv b a _ _ _ _ (isv_self b Hb) (isv_self a Ha)) as (r' & E' & Hr'); auto; [now rewrite map2_max_comm|].
  exists r. split; auto. replace r with r'; auto. eapply isv_unique; [exact Hr'| |].
  - eapply isv_ext; [exact Hr|apply map2_max_comm|reflexivity].
  - intros. apply vm_comm.
Qed.

Lemma c74_add_assoc : forall (T V : Type) (o : SOps T) (ov : VOps T V) (F : SField T) (M : VMod T V)
  (a b c : spline V), wf a -> wf b -> wf c -> length (degrees b) = length (degrees a) ->
  length (degrees c) = length (degrees a) ->
  (Z.of_nat (n_coeffs (map2 Nat.max (map2 Nat.max (degrees a) (degrees b)) (degrees c))) < 2 ^ 31)%Z ->
  exists ab bc r, returns (fun fuel => spline_add fuel a b) ab /\ returns (fun fuel => spline_add fuel b c) bc /\
    returns (fun fuel => spline_add fuel ab c) r /\ returns (fun fuel => spline_add fuel a bc) r.
Proof.
  intros T V o ov F M a b c Ha Hb Hc HL HL' HS.
  assert (L1 := len_max HL). 
  destruct (add_isv a b _ _ _ _ (isv_self a Ha) (isv_self b Hb)) as (ab & E1 & H1); auto.
  { eapply size_le; [|exact HS]. apply max_le_l. congruence. }
  destruct (add_isv b c _ _ _ _ (isv_self b Hb) (isv_self c Hc)) as (bc & E2 & H2); try congruence.
  { eapply size_le; [|exact HS]. rewrite map2_max_assoc, (map2_max_comm (degrees a)). apply max_le_l. rewrite len_max; congruence. }
  destruct (add_isv ab c _ _ _ _ H1 (isv_self c Hc)) as (r & E3 & H3); try congruence.
  destruct (add_isv a bc _ _ _ _ (isv_self a Ha) H2) as (r' & E4 & H4); [rewrite len_max; congruence|now rewrite <- map2_max_assoc|].
  exists ab, bc, r. do 3 (split; auto). replace r with r'; auto. eapply isv_unique; [exact H4| |].
  - eapply isv_ext; [exact H3|apply map2_max_assoc|reflexivity].
  - intros. apply vm_assoc.
Qed.

Lemma c74_negation : forall (T V : Type) (o : SOps T) (ov : VOps T V) (F : SField T) (M : VMod T V) (a : spline V),
  wf a -> (Z.of_nat (n_coeffs (degrees a)) < 2 ^ 31)%Z ->
  exists n z, spline_neg (T := T) a = Ok n /\ spline_neg (T := T) n = Ok a /\
    returns (fun fuel => spline_add (T := T) fuel a n) z /\ degrees z = degrees a /\
    Forall (fun p => p = v0) (control_points z).
Proof.
  intros T V o ov F M a Ha HS. destruct (neg_isv a _ _ (isv_self a Ha)) as (n & E & Hn).
  destruct (neg_isv n _ _ Hn) as (a' & E' & Ha').
  destruct (add_isv a n _ _ _ _ (isv_self a Ha) Hn) as (z & Ez & Hz); auto; [now rewrite map2_max_same|].
  rewrite map2_max_same in Hz. exists n, z. split; auto. split.
  { rewrite E'. f_equal. eapply isv_unique; [exact Ha'|apply isv_self; auto|]. intros. apply vopp_vopp. }
  split; auto. split; [apply Hz|].
  assert (Ez2 : z = mk (degrees a) (repeat v0 (n_coeffs (degrees a)))).
  { eapply isv_unique; [exact Hz| |].
    - split; [apply wf_mk; [apply Ha|apply repeat_length]|split; [reflexivity|]]. intros xs HX. reflexivity.
    - intros xs HX. unfold value_at at 3. cbn [mk degrees control_points].
      rewrite (bezier_ext _ _ _ (fun _ => v0)) by (intros; apply nth_repeat). rewrite bezier_const by auto. apply vm_opp. }
  rewrite Ez2. cbn [mk control_points]. apply Forall_forall. intros p Hp. eapply repeat_spec; eauto.
Qed.

Lemma c74_scaling : forall (T V : Type) (o : SOps T) (ov : VOps T V) (F : SField T) (M : VMod T V) (a b : spline V) (x y : T),
  wf a -> wf b -> length (degrees a) = length (degrees b) ->
  (Z.of_nat (n_coeffs (map2 Nat.max (degrees a) (degrees b))) < 2 ^ 31)%Z ->
  exists ab xab xa xb ya xya sxa, returns (fun fuel => spline_add fuel a b) ab /\ spline_scale ab x = Ok xab /\
    spline_scale a x = Ok xa /\ spline_scale b x = Ok xb /\ returns (fun fuel => spline_add fuel xa xb) xab /\
    spline_scale a y = Ok ya /\ spline_scale ya x = Ok xya /\ spline_scale a (smul x y) = Ok xya /\
    spline_scale a (sadd x y) = Ok sxa /\ returns (fun fuel => spline_add fuel xa ya) sxa /\ spline_scale a s1 = Ok a.
Proof.
  intros T V o ov F M a b x y Ha Hb HL HS.
  pose proof (isv_self a Ha) as Ia. pose proof (isv_self b Hb) as Ib.
  destruct (add_isv a b _ _ _ _ Ia Ib HL HS) as (ab & E & Hab).
  destruct (scale_isv x ab _ _ Hab) as (xab & E1 & H1). destruct (scale_isv x a _ _ Ia) as (xa & E2 & H2).
  destruct (scale_isv x b _ _ Ib) as (xb & E3 & H3). destruct (scale_isv y a _ _ Ia) as (ya & E4 & H4).
  destruct (scale_isv x ya _ _ H4) as (xya & E5 & H5). destruct (scale_isv (smul x y) a _ _ Ia) as (xya' & E6 & H6).
  destruct (scale_isv (sadd x y) a _ _ Ia) as (sxa & E7 & H7). destruct (scale_isv s1 a _ _ Ia) as (a1 & E8 & H8).
  destruct (add_isv xa xb _ _ _ _ H2 H3 HL HS) as (xab' & E9 & H9).
  destruct (add_isv xa ya _ _ _ _ H2 H4 eq_refl) as (sxa' & E10 & H10).
  { eapply size_le; [|exact HS]. rewrite map2_max_same. apply max_le_l. auto. }
  rewrite map2_max_same in H10.
  exists ab, xab, xa, xb, ya, xya, sxa.
  replace xab' with xab in *; [|eapply isv_unique; [exact H1|exact H9|]; intros; apply vm_dr].
  replace xya' with xya in *; [|eapply isv_unique; [exact H5|exact H6|]; intros; symmetry; apply vm_mul].
  replace sxa' with sxa in *; [|eapply isv_unique; [exact H7|exact H10|]; intros; apply vm_dl].
  replace a1 with a in *; [|eapply isv_unique; [exact Ia|exact H8|]; intros; symmetry; apply vm_1].
  repeat (split; [assumption|]). assumption.
Qed.

Lemma c74_mul_comm : forall (T : Type) (o : SOps T) (F : SField T) (MAXB : nat) (P Q : spline T),
  MAXB <= 68 -> wf P -> wf Q -> length (degrees Q) = length (degrees P) ->
  Forall (fun p => p < MAXB) (map2 Nat.add (degrees P) (degrees Q)) ->
  exists r, spline_mul_ss MAXB P Q = Ok r /\ spline_mul_ss MAXB Q P = Ok r.
Proof.
  intros T o F MAXB P Q HB HP HQ HL HF. pose proof (isv_self P HP) as IP. pose proof (isv_self Q HQ) as IQ.
  destruct (mul_isv smul MAXB P Q _ _ _ _ HB IP IQ HL HF) as (r & E & H).
  destruct (mul_isv smul MAXB Q P _ _ _ _ HB IQ IP) as (r' & E' & H'); auto; [now rewrite map2_add_comm|].
  exists r. split; auto. unfold spline_mul_ss. rewrite E'. f_equal. eapply isv_unique; [exact H'| |].
  - eapply isv_ext; [exact H|apply map2_add_comm|reflexivity].
  - intros. apply (F_R (sf_th (S := T))).(Rmul_comm).
Qed.

Lemma c74_mul_assoc : forall (T V : Type) (o : SOps T) (ov : VOps T V) (F : SField T) (M : VMod T V) (MAXB : nat)
  (P Q : spline T) (S : spline V), MAXB <= 68 -> wf P -> wf Q -> wf S ->
  length (degrees Q) = length (degrees P) -> length (degrees S) = length (degrees P) ->
  Forall (fun p => p < MAXB) (map2 Nat.add (map2 Nat.add (degrees P) (degrees Q)) (degrees S)) ->
  exists pq qs r, spline_mul_ss MAXB P Q = Ok pq /\ spline_mul_sv MAXB Q S = Ok qs /\
    spline_mul_sv MAXB pq S = Ok r /\ spline_mul_sv MAXB P qs = Ok r.
Proof.
  intros T V o ov F M MAXB P Q S HB HP HQ HS HL HL' HF.
  pose proof (isv_self P HP) as IP. pose proof (isv_self Q HQ) as IQ. pose proof (isv_self S HS) as IS.
  assert (L1 := length_map2_add _ _ HL).
  assert (L2 : length (map2 Nat.add (degrees Q) (degrees S)) = length (degrees P)) by (rewrite length_map2_add; congruence).
  destruct (mul_isv smul MAXB P Q _ _ _ _ HB IP IQ HL) as (pq & E1 & H1).
  { eapply Forall_le_lt; [|exact HF]. apply add_le_l. congruence. }
  destruct (mul_isv (fun c p => vscale c p) MAXB Q S _ _ _ _ HB IQ IS) as (qs & E2 & H2); [congruence| |].
  { eapply Forall_le_lt; [|exact HF]. rewrite map2_add_assoc, (map2_add_comm (degrees P)). apply add_le_l. congruence. }
  destruct (mul_isv (fun c p => vscale c p) MAXB pq S _ _ _ _ HB H1 IS) as (r & E3 & H3); [congruence|auto|].
  destruct (mul_isv (fun c p => vscale c p) MAXB P qs _ _ _ _ HB IP H2) as (r' & E4 & H4); [congruence|now rewrite <- map2_add_assoc|].
  exists pq, qs, r. do 3 (split; auto). unfold spline_mul_sv. rewrite E4. f_equal. eapply isv_unique; [exact H4| |].
  - eapply isv_ext; [exact H3|apply map2_add_assoc|reflexivity].
  - intros. symmetry. apply vm_mul.
Qed.

Lemma c74_mul_one : forall (T V : Type) (o : SOps T) (ov : VOps T V) (F : SField T) (M : VMod T V) (MAXB : nat)
  (S : spline V), MAXB <= 68 -> wf S -> Forall (fun p => p < MAXB) (degrees S) ->
  exists one, Spline_deg_points (repeat 0 (length (degrees S))) [s1] = Ok one /\ spline_mul_sv MAXB one S = Ok S.
Proof.
  intros T V o ov F M MAXB S HB HS HF. pose proof (isv_self S HS) as IS.
  destruct (const_one_ok MAXB HB (length (degrees S))) as (one & E & H1 & H2 & H3).
  { destruct HS as (Hd & _). destruct (degrees S); simpl; [congruence|lia]. }
  exists one. split; auto.
  destruct (mul_isv (fun c p => vscale c p) MAXB one S (repeat 0 (length (degrees S))) (degrees S) (fun _ => s1) (value_at S) HB)
    as (r & E' & H'); auto.
  - split; auto. split; auto. intros xs HX. apply H3. now rewrite repeat_length in HX.
  - now rewrite repeat_length.
  - now rewrite map2_add_zeros.
  - rewrite map2_add_zeros in H'. unfold spline_mul_sv. rewrite E'. f_equal. eapply isv_unique; [exact H'|exact IS|].
    intros. apply vm_1.
Qed.

Lemma c74_distributive : forall (T V : Type) (o : SOps T) (ov : VOps T V) (F : SField T) (M : VMod T V) (MAXB : nat)
  (C : spline T) (P Q : spline V), MAXB <= 68 -> wf C -> wf P -> wf Q ->
  length (degrees P) = length (degrees C) -> length (degrees Q) = length (degrees C) ->
  Forall (fun p => p < MAXB) (map2 Nat.add (degrees C) (degrees P)) ->
  Forall (fun p => p < MAXB) (map2 Nat.add (degrees C) (degrees Q)) ->
  (Z.of_nat (n_coeffs (map2 Nat.add (degrees C) (map2 Nat.max (degrees P) (degrees Q)))) < 2 ^ 31)%Z ->
  exists pq cp cq r, returns (fun fuel => spline_add fuel P Q) pq /\ spline_mul_sv MAXB C P = Ok cp /\
    spline_mul_sv MAXB C Q = Ok cq /\ spline_mul_sv MAXB C pq = Ok r /\
    returns (fun fuel => spline_add fuel cp cq) r /\ spline_mul_vs MAXB pq C = Ok r.
Proof.
  intros T V o ov F M MAXB C P Q HB HC HP HQ HL HL' HF HF' HS.
  pose proof (isv_self C HC) as IC. pose proof (isv_self P HP) as IP. pose proof (isv_self Q HQ) as IQ.
  assert (LM : length (map2 Nat.max (degrees P) (degrees Q)) = length (degrees C)) by (rewrite len_max; congruence).
  assert (ED : map2 Nat.add (degrees C) (map2 Nat.max (degrees P) (degrees Q)) =
    map2 Nat.max (map2 Nat.add (degrees C) (degrees P)) (map2 Nat.add (degrees C) (degrees Q))).
  { rewrite !(map2_add_comm (degrees C)). apply map2_add_max; congruence. }
  destruct (add_isv P Q _ _ _ _ IP IQ) as (pq & E1 & H1); [congruence| |].
  { eapply size_le; [|exact HS]. rewrite map2_add_comm. apply add_le_l. congruence. }
  destruct (mul_isv (fun c p => vscale c p) MAXB C P _ _ _ _ HB IC IP HL HF) as (cp & E2 & H2).
  destruct (mul_isv (fun c p => vscale c p) MAXB C Q _ _ _ _ HB IC IQ HL' HF') as (cq & E3 & H3).
  assert (HFM : Forall (fun p => p < MAXB) (map2 Nat.add (degrees C) (map2 Nat.max (degrees P) (degrees Q)))).
  { rewrite ED. apply max_lt; auto. }
  destruct (mul_isv (fun c p => vscale c p) MAXB C pq _ _ _ _ HB IC H1 LM HFM) as (r & E4 & H4).
  destruct (mul_isv (fun p c => vscale c p) MAXB pq C _ _ _ _ HB H1 IC) as (r'' & E6 & H6); [congruence|now rewrite map2_add_comm|].
  destruct (add_isv cp cq _ _ _ _ H2 H3) as (r' & E5 & H5); [rewrite !length_map2_add; congruence|congruence|].
  exists pq, cp, cq, r. do 4 (split; auto). split.
  - replace r with r'; auto. rewrite <- ED in H5. eapply isv_unique; [exact H5|exact H4|]. intros. symmetry. apply vm_dr.
  - unfold spline_mul_vs. rewrite E6. f_equal. rewrite map2_add_comm in H6. eapply isv_unique; [exact H6|exact H4|]. reflexivity.
Qed.

Lemma c74_dot : forall (T : Type) (o : SOps T) (F : SField T) (MAXB d : nat) (P Q S : spline (point T d)),
  MAXB <= 68 -> wf P -> wf Q -> wf S -> length (degrees Q) = length (degrees P) -> length (degrees S) = length (degrees P) ->
  Forall (fun p => p < MAXB) (map2 Nat.add (degrees P) (degrees Q)) ->
  Forall (fun p => p < MAXB) (map2 Nat.add (degrees P) (degrees S)) ->
  (Z.of_nat (n_coeffs (map2 Nat.add (degrees P) (map2 Nat.max (degrees Q) (degrees S)))) < 2 ^ 31)%Z ->
  let mul := spline_mul MAXB (fun p q => ssum d (fun k => smul (coord d p k) (coord d q k))) in
  exists qs pq ps r, returns (fun fuel => spline_add fuel Q S) qs /\ mul P Q = Ok pq /\ mul P S = Ok ps /\
    mul Q P = Ok pq /\ mul P qs = Ok r /\ returns (fun fuel => spline_add fuel pq ps) r.
Proof.
  intros T o F MAXB d P Q S HB HP HQ HS HL HL' HF HF' HZ mul.
  pose proof (isv_self P HP) as IP. pose proof (isv_self Q HQ) as IQ. pose proof (isv_self S HS) as IS.
  assert (LM : length (map2 Nat.max (degrees Q) (degrees S)) = length (degrees P)) by (rewrite len_max; congruence).
  assert (ED : map2 Nat.add (degrees P) (map2 Nat.max (degrees Q) (degrees S)) =
    map2 Nat.max (map2 Nat.add (degrees P) (degrees Q)) (map2 Nat.add (degrees P) (degrees S))).
  { rewrite !(map2_add_comm (degrees P)). apply map2_add_max; congruence. }
  destruct (add_isv Q S _ _ _ _ IQ IS) as (qs & E1 & H1); [congruence| |].
  { eapply size_le; [|exact HZ]. rewrite map2_add_comm. apply add_le_l. congruence. }
  destruct (mul_isv (dot d) MAXB P Q _ _ _ _ HB IP IQ HL HF) as (pq & E2 & H2).
  destruct (mul_isv (dot d) MAXB P S _ _ _ _ HB IP IS HL' HF') as (ps & E3 & H3).
  destruct (mul_isv (dot d) MAXB Q P _ _ _ _ HB IQ IP) as (qp & E7 & H7); [congruence|now rewrite map2_add_comm|].
  assert (HFM : Forall (fun p => p < MAXB) (map2 Nat.add (degrees P) (map2 Nat.max (degrees Q) (degrees S)))).
  { rewrite ED. apply max_lt; auto. }
  destruct (mul_isv (dot d) MAXB P qs _ _ _ _ HB IP H1 LM HFM) as (r & E4 & H4).
  destruct (add_isv pq ps _ _ _ _ H2 H3) as (r' & E5 & H5); [rewrite !length_map2_add; congruence|congruence|].
  exists qs, pq, ps, r. do 3 (split; auto). split; [|split; auto].
  - unfold mul. change (fun p q : point T d => ssum d (fun k => smul (coord d p k) (coord d q k))) with (dot (T := T) d).
    rewrite E7. f_equal. rewrite map2_add_comm in H7. eapply isv_unique; [exact H7|exact H2|].
    intros. unfold dot. apply ssum_ext. intros. apply (F_R (sf_th (S := T))).(Rmul_comm).
  - replace r with r'; auto. rewrite <- ED in H5. eapply isv_unique; [exact H5|exact H4|]. intros. symmetry.
    apply (bl_add_r (pmul := dot d)).
Qed.

Section SpowLaws.
Context {T : Type} {o : SOps T} {F : SField T}.
Add Field Tfield : (@sf_th T o F).
Lemma spow_spow (x : T) m n : spow (spow x m) n = spow x (m * n).
Proof. induction n; [now rewrite Nat.mul_0_r|]. rewrite Nat.mul_succ_r, spow_add. cbn [spow]. rewrite IHn. ring. Qed.
Lemma spow_smul (x y : T) n : spow (smul x y) n = smul (spow x n) (spow y n).
Proof. induction n; cbn [spow]; [ring|]. rewrite IHn. ring. Qed.
End SpowLaws.

Lemma c74_power : forall (T : Type) (o : SOps T) (F : SField T) (MAXB m n : nat) (P Q : spline T),
  MAXB <= 68 -> wf P -> wf Q -> length (degrees Q) = length (degrees P) ->
  (Forall (fun p => (m + n) * p < MAXB) (degrees P) ->
    exists a b r, RaisePower MAXB P m = Ok a /\ RaisePower MAXB P n = Ok b /\ RaisePower MAXB P (m + n) = Ok r /\
      spline_mul_ss MAXB a b = Ok r) /\
  (Forall (fun p => m * n * p < MAXB) (degrees P) -> 0 < n ->
    exists a r, RaisePower MAXB P m = Ok a /\ RaisePower MAXB a n = Ok r /\ RaisePower MAXB P (m * n) = Ok r) /\
  (Forall (fun p => n * p < MAXB) (map2 Nat.add (degrees P) (degrees Q)) -> 0 < n ->
    exists pq a b r, spline_mul_ss MAXB P Q = Ok pq /\ RaisePower MAXB P n = Ok a /\ RaisePower MAXB Q n = Ok b /\
      RaisePower MAXB pq n = Ok r /\ spline_mul_ss MAXB a b = Ok r).
Proof.
  intros T o F MAXB m n P Q HB HP HQ HL. pose proof (isv_self P HP) as IP. pose proof (isv_self Q HQ) as IQ.
  split; [|split].
  - intros HF.
    destruct (power_isv MAXB P _ _ m HB IP) as (a & E1 & H1); [eapply Forall_impl; [|exact HF]; intros p Hp; cbv beta in *; nia|].
    destruct (power_isv MAXB P _ _ n HB IP) as (b & E2 & H2); [eapply Forall_impl; [|exact HF]; intros p Hp; cbv beta in *; nia|].
    destruct (power_isv MAXB P _ _ (m + n) HB IP HF) as (r & E3 & H3).
    destruct (mul_isv smul MAXB a b _ _ _ _ HB H1 H2) as (r' & E4 & H4).
    { now rewrite !map_length. } { rewrite (map2_add_mul MAXB HB), Forall_map. exact HF. }
    exists a, b, r. do 3 (split; auto). unfold spline_mul_ss. rewrite E4. f_equal. rewrite (map2_add_mul MAXB HB) in H4.
    eapply isv_unique; [exact H4|exact H3|]. intros. symmetry. apply spow_add.
  - intros HF Hn.
    destruct (power_isv MAXB P _ _ m HB IP) as (a & E1 & H1); [eapply Forall_impl; [|exact HF]; intros p Hp; cbv beta in *; nia|].
    destruct (power_isv MAXB a _ _ n HB H1) as (r & E2 & H2).
    { rewrite Forall_map. eapply Forall_impl; [|exact HF]. intros p Hp. cbv beta in *. lia. }
    destruct (power_isv MAXB P _ _ (m * n) HB IP HF) as (r' & E3 & H3). exists a, r. do 2 (split; auto).
    rewrite E3. f_equal. rewrite map_mul_mul in H2. eapply isv_unique; [exact H3|exact H2|]. intros. symmetry. apply spow_spow.
  - intros HF Hn.
    assert (HF1 : Forall (fun p => p < MAXB) (map2 Nat.add (map (Nat.mul n) (degrees P)) (map (Nat.mul n) (degrees Q)))).
    { rewrite <- map_mul_add, Forall_map. exact HF. }
    destruct (mul_isv smul MAXB P Q _ _ _ _ HB IP IQ HL) as (pq & E1 & H1).
    { eapply Forall_impl; [|exact HF]. intros p Hp. cbv beta in *. nia. }
    destruct (power_isv MAXB P _ _ n HB IP) as (a & E2 & H2).
    { rewrite <- (Forall_map (Nat.mul n) (fun p => p < MAXB)). eapply Forall_le_lt; [|exact HF1]. apply add_le_l. now rewrite !map_length. }
    destruct (power_isv MAXB Q _ _ n HB IQ) as (b & E3 & H3).
    { rewrite <- (Forall_map (Nat.mul n) (fun p => p < MAXB)). eapply Forall_le_lt; [|exact HF1]. rewrite map2_add_comm. apply add_le_l.
      now rewrite !map_length. }
    destruct (power_isv MAXB pq _ _ n HB H1 HF) as (r & E4 & H4).
    destruct (mul_isv smul MAXB a b _ _ _ _ HB H2 H3) as (r' & E5 & H5); [now rewrite !map_length|exact HF1|].
    exists pq, a, b, r. do 4 (split; auto). unfold spline_mul_ss. rewrite E5. f_equal. rewrite map_mul_add in H4.
    eapply isv_unique; [exact H5|exact H4|]. intros. symmetry. apply spow_smul.
Qed.
