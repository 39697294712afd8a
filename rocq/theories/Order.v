(** Consequences of the order axioms. *)
From Coq Require Import Arith Lia List ZArith NArith Bool Ring Field.
From Verif Require Import Prelude Scalar Spec Sums.
Import ListNotations.

Section Ord.
Context {T : Type} {o : SOps T} {F : SField T} {O : SOrder T}.
Add Field Tfield : (@sf_th T o F).

Lemma sle_iff (a b : T) : sle a b <-> slt a b \/ a = b.
Proof.
  unfold sle. split.
  - intros H. destruct (so_total a b) as [?|[?|H']]; auto.
    unfold slt in H'. congruence.
  - intros [H| ->].
    + destruct (sltb b a) eqn:E; auto. exfalso. apply (so_irrefl a). eapply so_trans; eauto.
    + destruct (sltb b b) eqn:E; auto. exfalso. apply (so_irrefl b E).
Qed.
Lemma slt_sle (a b : T) : slt a b -> sle a b.
Proof. rewrite sle_iff; auto. Qed.
Lemma sle_refl (a : T) : sle a a.
Proof. rewrite sle_iff; auto. Qed.
Lemma sle_not_lt (a b : T) : sle a b <-> ~ slt b a.
Proof. unfold sle, slt. destruct (sltb b a); split; congruence. Qed.
Lemma sle_or_lt (a b : T) : sle a b \/ slt b a.
Proof. unfold sle, slt. destruct (sltb b a); auto. Qed.
Lemma slt_neq (a b : T) : slt a b -> a <> b.
Proof. intros H ->. apply (so_irrefl b H). Qed.
Lemma slt_asym (a b : T) : slt a b -> ~ slt b a.
Proof. intros H H'. apply (so_irrefl a). eapply so_trans; eauto. Qed.
Lemma sle_trans (a b c : T) : sle a b -> sle b c -> sle a c.
Proof. rewrite !sle_iff. intros [H| ->] [H'| ->]; auto. left; eapply so_trans; eauto. Qed.
Lemma sle_lt_trans (a b c : T) : sle a b -> slt b c -> slt a c.
Proof. rewrite sle_iff. intros [H| ->] H'; auto. eapply so_trans; eauto. Qed.
Lemma slt_le_trans (a b c : T) : slt a b -> sle b c -> slt a c.
Proof. rewrite sle_iff. intros H [H'| <-]; auto. eapply so_trans; eauto. Qed.
Lemma sle_antisym (a b : T) : sle a b -> sle b a -> a = b.
Proof. rewrite !sle_iff. intros [H|] [H'|]; auto. exfalso; eapply slt_asym; eauto. Qed.
Lemma sle_total (a b : T) : sle a b \/ sle b a.
Proof. destruct (sle_or_lt a b); auto. right. apply slt_sle; auto. Qed.

Lemma slt_sub (a b : T) : slt a b <-> slt s0 (ssub b a).
Proof.
  split; intros H.
  - replace (s0 : T) with (sadd a (sopp a)) by ring.
    replace (ssub b a) with (sadd b (sopp a)) by ring. apply so_add; auto.
  - replace a with (sadd s0 a) by ring.
    replace b with (sadd (ssub b a) a) by ring. apply so_add; auto.
Qed.
Lemma sle_sub (a b : T) : sle a b <-> sle s0 (ssub b a).
Proof.
  rewrite !sle_iff. rewrite (slt_sub a b). split; intros [H|H]; auto; right.
  - subst. ring.
  - replace b with (sadd (ssub b a) a) by ring. rewrite <- H. ring.
Qed.
Lemma sle_add (a b c d : T) : sle a b -> sle c d -> sle (sadd a c) (sadd b d).
Proof.
  intros H H'. apply sle_trans with (sadd b c).
  - rewrite sle_iff in *. destruct H as [H| ->]; auto. left. apply so_add; auto.
  - rewrite sle_iff in *. destruct H' as [H'| ->]; auto. left.
    replace (sadd b c) with (sadd c b) by ring. replace (sadd b d) with (sadd d b) by ring.
    apply so_add; auto.
Qed.
Lemma sle_mul_0 (a b : T) : sle s0 a -> sle s0 b -> sle s0 (smul a b).
Proof.
  rewrite !sle_iff. intros [H| <-] [H'| <-]; try (right; ring). left. apply so_mul; auto.
Qed.
Lemma sle_mul_l (a b c : T) : sle s0 c -> sle a b -> sle (smul c a) (smul c b).
Proof.
  intros Hc H. apply (proj1 (sle_sub a b)) in H. apply (proj2 (sle_sub (smul c a) (smul c b))). replace (ssub (smul c b) (smul c a)) with (smul c (ssub b a)) by ring.
  apply sle_mul_0; auto.
Qed.
Lemma slt_mul_l (a b c : T) : slt s0 c -> slt a b -> slt (smul c a) (smul c b).
Proof.
  intros Hc H. apply (proj1 (slt_sub a b)) in H. apply (proj2 (slt_sub (smul c a) (smul c b))). replace (ssub (smul c b) (smul c a)) with (smul c (ssub b a)) by ring.
  apply so_mul; auto.
Qed.
Lemma sle_0_1 : sle (s0 : T) s1.
Proof. apply slt_sle, so_01. Qed.
Lemma slt_opp (a : T) : slt a s0 <-> slt s0 (sopp a).
Proof. rewrite slt_sub. replace (ssub s0 a) with (sopp a) by ring. tauto. Qed.

Lemma slt_add (a b c d : T) : slt a b -> sle c d -> slt (sadd a c) (sadd b d).
Proof.
  intros H H'. apply slt_le_trans with (sadd b c).
  - apply so_add; auto.
  - apply sle_add; auto. apply sle_refl.
Qed.
Lemma slt_div (a b : T) : slt s0 a -> slt s0 b -> slt s0 (sdiv a b).
Proof.
  intros Ha Hb. assert (Hn : b <> s0) by (intros ->; apply (so_irrefl s0 Hb)).
  destruct (so_total s0 (sdiv a b)) as [H|[H|H]]; auto; exfalso.
  - apply (slt_neq s0 a); auto. replace a with (smul (sdiv a b) b) by (field; auto). rewrite <- H. ring.
  - apply (so_irrefl s0). apply so_trans with a; auto.
    apply slt_opp. replace (sopp a) with (smul (sopp (sdiv a b)) b) by (field; auto).
    apply so_mul; auto. apply slt_opp. auto.
Qed.
Lemma sle_div (a b : T) : sle s0 a -> slt s0 b -> sle s0 (sdiv a b).
Proof.
  rewrite !(sle_iff s0). intros [H| <-] Hb; [left; apply slt_div; auto|right].
  assert (Hn : b <> s0) by (intros ->; apply (so_irrefl s0 Hb)). field; auto.
Qed.
Lemma sle_div_iff (a b c : T) : slt s0 c -> (sle a (sdiv b c) <-> sle (smul c a) b).
Proof.
  intros Hc. assert (Hn : c <> s0) by (intros ->; apply (so_irrefl s0 Hc)).
  rewrite (sle_sub a), (sle_sub (smul c a)). split; intros H.
  - replace (ssub b (smul c a)) with (smul c (ssub (sdiv b c) a)) by (field; auto).
    apply sle_mul_0; auto. apply slt_sle; auto.
  - replace (ssub (sdiv b c) a) with (sdiv (ssub b (smul c a)) c) by (field; auto).
    apply sle_div; auto.
Qed.
Lemma sle_div_iff' (a b c : T) : slt s0 c -> (sle (sdiv b c) a <-> sle b (smul c a)).
Proof.
  intros Hc. assert (Hn : c <> s0) by (intros ->; apply (so_irrefl s0 Hc)).
  rewrite (sle_sub (sdiv b c)), (sle_sub b). split; intros H.
  - replace (ssub (smul c a) b) with (smul c (ssub a (sdiv b c))) by (field; auto).
    apply sle_mul_0; auto. apply slt_sle; auto.
  - replace (ssub a (sdiv b c)) with (sdiv (ssub (smul c a) b) c) by (field; auto).
    apply sle_div; auto.
Qed.
Lemma ssq_nonneg (a : T) : sle s0 (smul a a).
Proof.
  destruct (sle_or_lt s0 a) as [H|H]; [apply sle_mul_0; auto|].
  replace (smul a a) with (smul (sopp a) (sopp a)) by ring.
  apply sle_mul_0; apply slt_sle, slt_opp; auto.
Qed.

Lemma sofN_nonneg n : sle (s0 : T) (sofN n).
Proof.
  induction n using N.peano_ind.
  - rewrite sf_ofN0. apply sle_refl.
  - rewrite sf_ofNS. replace (s0 : T) with (sadd s0 s0 : T) by ring.
    apply sle_add; auto. apply sle_0_1.
Qed.
Lemma spow_nonneg (x : T) n : sle s0 x -> sle s0 (spow x n).
Proof. intros. induction n; [apply sle_0_1|]. rewrite spow_S. apply sle_mul_0; auto. Qed.

Lemma bernstein_nonneg p j (x : T) : in_unit x -> sle s0 (bernstein p j x).
Proof.
  intros (H0 & H1). unfold bernstein.
  repeat apply sle_mul_0; auto using sofN_nonneg, spow_nonneg.
  apply spow_nonneg. apply (proj1 (sle_sub x s1)). auto.
Qed.

Lemma ssum_le n (f g : nat -> T) :
  (forall i, i < n -> sle (f i) (g i)) -> sle (ssum n f) (ssum n g).
Proof.
  induction n; intros H; simpl; [apply sle_refl|]. apply sle_add; auto.
Qed.
Lemma ssum_nonneg n (f : nat -> T) :
  (forall i, i < n -> sle s0 (f i)) -> sle s0 (ssum n f).
Proof.
  intros H. apply sle_trans with (ssum n (fun _ => s0)); [|apply ssum_le; auto].
  assert (E : ssum n (fun _ => s0 : T) = s0).
  { clear - F. induction n; simpl; auto. rewrite IHn. ring. }
  rewrite E. apply sle_refl.
Qed.
Lemma ssum_pos n (f : nat -> T) k :
  (forall i, i < n -> sle s0 (f i)) -> k < n -> slt s0 (f k) -> slt s0 (ssum n f).
Proof.
  induction n; intros H Hk Hp; [lia|]. simpl.
  destruct (Nat.eq_dec k n) as [->|].
  - replace (s0 : T) with (sadd s0 s0 : T) by ring.
    replace (sadd (ssum n f) (f n)) with (sadd (f n) (ssum n f)) by ring.
    apply slt_add; auto. apply ssum_nonneg. auto.
  - replace (s0 : T) with (sadd s0 s0 : T) by ring. apply slt_add; auto. apply IHn; auto. lia.
Qed.

End Ord.
