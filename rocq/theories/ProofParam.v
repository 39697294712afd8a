(** Evaluation preserves relations between scalar types that the ring operations preserve. *)
From Coq Require Import Arith Lia List ZArith NArith Bool.
From Verif Require Import Prelude Scalar ModelBasis ModelSpline ModelRational.
Import ListNotations.
Local Open Scope nat_scope.

Lemma F2_length {A B} (P : A -> B -> Prop) l m : Forall2 P l m -> length l = length m.
Proof. induction 1; simpl; auto. Qed.
Lemma F2_repeat {A B} (P : A -> B -> Prop) x y n : P x y -> Forall2 P (repeat x n) (repeat y n).
Proof. intros; induction n; simpl; auto. Qed.

Definition rres {A B} (P : A -> B -> Prop) (a : res A) (b : res B) : Prop :=
  match a, b with
  | Ok x, Ok y => P x y
  | Throw, Throw | AssertFail, AssertFail | UB, UB | NonFinite, NonFinite | Diverge, Diverge => True
  | _, _ => False
  end.

Lemma rres_bind {A B C D} (P : A -> B -> Prop) (Q : C -> D -> Prop) m m' k k' :
  rres P m m' -> (forall x y, P x y -> rres Q (k x) (k' y)) -> rres Q (bind m k) (bind m' k').
Proof. destruct m, m'; simpl; intros H K; try contradiction; auto. Qed.
Lemma rres_for_up {A B} (P : A -> B -> Prop) f g n lo a b :
  P a b -> (forall i x y, P x y -> rres P (f i x) (g i y)) -> rres P (for_up lo n f a) (for_up lo n g b).
Proof.
  intros H S. revert lo a b H; induction n; intros lo a b H; [exact H|]. simpl.
  eapply rres_bind; [apply S; exact H|]. intros; apply IHn; auto.
Qed.
Lemma rres_get {A B} (P : A -> B -> Prop) l m i : Forall2 P l m -> rres P (get l i) (get m i).
Proof.
  intros H. unfold get. revert i; induction H; intros [|i]; simpl; auto; apply IHForall2.
Qed.
Lemma rres_same {A} (m : res A) : rres eq m m.
Proof. destruct m; simpl; auto. Qed.
Lemma Forall2_upd {A B} (P : A -> B -> Prop) l m i x y : Forall2 P l m -> P x y -> Forall2 P (upd_list l i x) (upd_list m i y).
Proof. intros H K. revert i; induction H; intros [|i]; simpl; auto. Qed.
Lemma rres_set {A B} (P : A -> B -> Prop) l m i x y : Forall2 P l m -> P x y -> rres (Forall2 P) (set l i x) (set m i y).
Proof.
  intros H K. unfold set. rewrite (F2_length _ _ _ H). destruct (i <? length m); simpl; auto. apply Forall2_upd; auto.
Qed.

Section Rel.
Context {T1 T2 V1 V2 : Type} {o1 : SOps T1} {o2 : SOps T2} {ov1 : VOps T1 V1} {ov2 : VOps T2 V2}.
Context (RT : T1 -> T2 -> Prop) (RV : V1 -> V2 -> Prop).

Record rel_ring : Prop := {
  rr_0 : RT s0 s0;
  rr_1 : RT s1 s1;
  rr_add : forall a b a' b', RT a a' -> RT b b' -> RT (sadd a b) (sadd a' b');
  rr_sub : forall a b a' b', RT a a' -> RT b b' -> RT (ssub a b) (ssub a' b');
  rr_mul : forall a b a' b', RT a a' -> RT b b' -> RT (smul a b) (smul a' b');
  rr_ofN : forall k, RT (sofN k) (sofN k)
}.
Record rel_mod : Prop := {
  rm_0 : RV v0 v0;
  rm_add : forall a b a' b', RV a a' -> RV b b' -> RV (vadd a b) (vadd a' b');
  rm_scale : forall c a c' a', RT c c' -> RV a a' -> RV (vscale c a) (vscale c' a')
}.

Record srel (s : spline V1) (s' : spline V2) : Prop := {
  sr_deg : degrees s = degrees s';
  sr_n : number_of_control_points s = number_of_control_points s';
  sr_off : index_offsets s = index_offsets s';
  sr_cps : Forall2 RV (control_points s) (control_points s')
}.

Context (HR : rel_ring) (HM : rel_mod).

Lemma Evaluate_rel s s' xs xs' : srel s s' -> Forall2 RT xs xs' -> rres RV (Evaluate s xs) (Evaluate s' xs').
Proof.
  intros [Hd Hn Ho Hc] Hx. unfold Evaluate. rewrite Hd, Hn, Ho.
  apply (rres_bind (fun a b => Forall2 RV (fst a) (fst b) /\ snd a = snd b)).
  - apply rres_for_up; [simpl; auto|]. intros i (c & m) (c' & m') (H1 & H2). simpl in H1, H2. subst m'.
    eapply rres_bind; [apply rres_get; exact Hx|]. intros f f' Hf.
    eapply rres_bind; [apply rres_same|]. intros p ? <-.
    eapply rres_bind; [apply rres_same|]. intros off ? <-.
    cbv zeta. eapply (rres_bind (Forall2 RV)).
    + apply rres_for_up; auto. intros k u u' Hu. apply rres_for_up; auto. intros k2 v v' Hv.
      apply rres_for_up; auto. intros k3 w w' Hw.
      eapply rres_bind; [apply rres_get; exact Hw|]. intros a a' Ha.
      eapply rres_bind; [apply rres_get; exact Hw|]. intros b b' Hb.
      apply rres_set; auto. apply rm_add; auto; apply rm_scale; auto. apply rr_sub; auto. apply rr_1; auto.
    + intros. simpl. auto.
  - intros (c & m) (c' & m') (H1 & H2). apply rres_get. exact H1.
Qed.

Lemma BernsteinEvaluate_rel MAXB p x x' : RT x x' -> rres (Forall2 RT) (BernsteinEvaluate MAXB p x) (BernsteinEvaluate MAXB p x').
Proof.
  intros Hx. unfold BernsteinEvaluate. eapply rres_bind; [apply rres_same|]. intros _ _ _. cbv zeta.
  assert (H1 : RT s1 s1) by (apply rr_1; auto).
  eapply (rres_bind (fun a b => Forall2 RT (fst a) (fst b) /\ RT (snd a) (snd b))).
  - apply rres_for_up; [simpl; auto|]. intros i (a & b) (a' & b') (Ha & Hb). simpl in Ha, Hb.
    eapply rres_bind; [apply rres_same|]. intros c ? <-. simpl. split; [apply Forall2_app; auto; constructor; auto|];
      apply rr_mul; auto. apply rr_ofN; auto.
  - intros (a & b) (a' & b') (Ha & Hb). simpl in Ha, Hb.
    eapply (rres_bind (fun a b => Forall2 RT (fst a) (fst b) /\ RT (snd a) (snd b))).
    + apply rres_for_up; [simpl; auto|]. clear a b a' b' Ha Hb. intros i (a & b) (a' & b') (Ha & Hb). simpl in Ha, Hb.
      eapply rres_bind; [apply rres_get; exact Ha|]. intros e e' He.
      eapply rres_bind; [apply rres_set; [exact Ha|]; apply rr_mul; eauto|]. intros l l' Hl. simpl. split; auto.
      apply rr_mul; auto. apply rr_sub; auto.
    + intros (c & d) (c' & d') (Hc & Hd). exact Hc.
Qed.

Lemma RecursiveCombine__rel k fs fs' r r' c c' : Forall2 (Forall2 RT) fs fs' -> Forall2 RT r r' -> RT c c' ->
  rres (Forall2 RT) (RecursiveCombine_ k fs r c) (RecursiveCombine_ k fs' r' c').
Proof.
  intros Hf. revert r r' c c'. induction k; intros r r' c c' Hr Hc; cbn [RecursiveCombine_];
    (eapply rres_bind; [apply rres_get; exact Hf|]; intros l l' Hl; rewrite (F2_length _ _ _ Hl);
     apply rres_for_up; auto; intros i u u' Hu; eapply rres_bind; [apply rres_get; exact Hl|]; intros x x' Hx).
  - simpl. apply Forall2_app; auto. constructor; auto. apply rr_mul; auto.
  - apply IHk; auto. apply rr_mul; auto.
Qed.

Lemma BasisFunctions_rel MAXB s s' xs xs' : srel s s' -> Forall2 RT xs xs' ->
  rres (Forall2 RT) (BasisFunctions MAXB s xs) (BasisFunctions MAXB s' xs').
Proof.
  intros [Hd _ _ _] Hx. unfold BasisFunctions. eapply (rres_bind (Forall2 (Forall2 RT))).
  - unfold BasisFunctionContributions. rewrite Hd. apply rres_for_up; [apply F2_repeat; auto|].
    intros i l l' Hl. eapply rres_bind; [apply rres_same|]. intros p ? <-.
    eapply rres_bind; [apply rres_get; exact Hx|]. intros x x' Hxx.
    eapply rres_bind; [apply BernsteinEvaluate_rel; exact Hxx|]. intros b b' Hb. apply rres_set; auto.
  - intros f f' Hf. unfold RecursiveCombine. rewrite (F2_length _ _ _ Hf). apply RecursiveCombine__rel; auto.
    apply rr_1; auto.
Qed.

Lemma ForwardEvaluate_rel MAXB s s' xs xs' : srel s s' -> Forall2 RT xs xs' ->
  rres RV (ForwardEvaluate MAXB s xs) (ForwardEvaluate MAXB s' xs').
Proof.
  intros Hs Hx. unfold ForwardEvaluate. eapply rres_bind; [apply BasisFunctions_rel; eauto|].
  intros f f' Hf. unfold combine_points. rewrite (F2_length _ _ _ Hf). apply rres_for_up; [apply rm_0; auto|].
  intros i a a' Ha. eapply rres_bind; [apply rres_get; exact Hf|]. intros x x' Hxx.
  eapply rres_bind; [apply rres_get; apply Hs|]. intros c c' Hc. simpl. apply rm_add; auto. apply rm_scale; auto.
Qed.
End Rel.
Arguments rel_ring {T1 T2 o1 o2} RT.
Arguments rel_mod {T1 T2 V1 V2 ov1 ov2} RT RV.
