(** Numbers with gradients, functions and plain numbers: the three arithmetics are related. *)
From Coq Require Import Arith Lia List ZArith NArith Bool Reals Lra.
From Verif Require Import Prelude Scalar ModelBasis ModelSpline ModelRational ModelPoint SpecReal ProofReal ModelAD ProofAD
  ModelADSpline SpecADSpline ModelADOps SpecADOps ProofParam ProofParamOps ProofParamRat ClaimsQ.
Import ListNotations.
Local Open Scope R_scope.

(** Relations on PhysicalPointType *)
Definition vrel {T1 T2} (RT : T1 -> T2 -> Prop) (k : option nat) : phys T1 k -> phys T2 k -> Prop :=
  match k with None => RT | Some d => prel RT d end.
Lemma rel_mod_phys {T1 T2} {o1 : SOps T1} {o2 : SOps T2} (RT : T1 -> T2 -> Prop) k : rel_ring' RT ->
  rel_mod' (ov1 := VOps_phys T1 k) (ov2 := VOps_phys T2 k) RT (vrel RT k).
Proof. intros H. destruct k; [apply (rel_mod_point RT H)|apply (rel_mod_scalar RT H)]. Qed.
Lemma pdot_rel {T1 T2} {o1 : SOps T1} {o2 : SOps T2} (RT : T1 -> T2 -> Prop) d a b a' b' : rel_ring' RT ->
  prel RT d a a' -> prel RT d b b' -> RT (pdot d a b) (pdot d a' b').
Proof.
  intros H Ha Hb. pose proof (rr'_ring _ H) as HR. unfold pdot.
  assert (K : rres RT (point_dot a b) (point_dot a' b')).
  { unfold point_dot. apply rres_for_up; [apply (rr_0 _ HR)|]. intros.
    eapply rres_bind; [apply pget_rel; exact Ha|]. intros. eapply rres_bind; [apply pget_rel; exact Hb|]. intros. simpl.
    apply (rr_add _ HR); auto. apply (rr_mul _ HR); auto. }
  destruct (point_dot a b), (point_dot a' b'); simpl in K; try contradiction; auto; apply (rr_0 _ HR).
Qed.

Section Tracks.
Context (y : list R).
Notation n := (length y).

Lemma tracks_opp a f : tracks y a f -> tracks y (sopp (SOps := SOps_AD n) a) (fun y' => - f y').
Proof.
  intros (A1 & A2 & A3). cbn. unfold AD_neg. cbn [a_neg ADScalar_R bind].
  rewrite (each_ok (fun x : R => Ok (- x)) Ropp) by reflexivity. cbn [bind run]. split; [simpl; now rewrite A1|].
  split; [simpl; now rewrite map_length|]. intros i Hi. simpl. rewrite (nth_indep (map Ropp (ad_d a)) 0 (- 0)) by now rewrite map_length, A2.
  rewrite map_nth. apply (derivable_pt_lim_opp (fun t => f (upd_list y i t))). now apply A3.
Qed.

Lemma divS_AD a b f g : tracks y a f -> tracks y b g ->
  rres (tracks y) (divS (H := SOps_AD n) a b) (divS (H := SOps_fun y) f g).
Proof.
  intros Ha Hb. unfold divS. cbn [seqb SOps_AD SOps_fun s0]. unfold AD_eq. destruct Hb as (B1 & B2 & B3). cbn [AD_constant ad_v].
  rewrite B1. unfold eqb. cbn [seqb SOps_R]. destruct (Req_EM_T (g y) 0); [exact I|]. simpl.
  apply tracks_div; auto. repeat split; auto.
Qed.
Lemma ring1 : rel_ring' (o1 := SOps_AD n) (o2 := SOps_fun y) (tracks y).
Proof.
  split; [apply ring_tracks|intros; now apply tracks_opp|].
  intros a a' k H. apply divS_AD; auto. apply tracks_const.
Qed.
Lemma ring2 y' : rel_ring' (o1 := SOps_fun y) (at_point (A := R) y').
Proof.
  split; [apply ring_at|unfold at_point; intros; subst; reflexivity|].
  unfold at_point. intros a a' k <-. unfold divS. simpl. change R0 with 0. destruct (Req_EM_T (IZR (Z.of_N k)) 0); simpl; auto.
Qed.
Lemma lt1 : rel_lt (o1 := SOps_AD n) (o2 := SOps_fun y) (tracks y).
Proof. intros a b a' b' (A & _) (B & _). unfold rel_lt. cbn. unfold AD_lt, s_lt_AD, AD_gt_s, gtb. rewrite A, B. reflexivity. Qed.
Lemma lt2 : rel_lt (o1 := SOps_fun y) (at_point (A := R) y).
Proof. unfold at_point. intros a b a' b' <- <-. reflexivity. Qed.
Lemma div2 a b a' b' : at_point y a a' -> at_point y b b' -> rres (at_point y) (divS (H := SOps_fun y) a b) (divS a' b').
Proof. unfold at_point. intros <- <-. unfold divS. simpl. change R0 with 0. destruct (Req_EM_T (b y) 0); simpl; auto. Qed.
Lemma div3 y' a b a' b' : at_point y' a a' -> at_point y' b b' -> wres (at_point y') (divS (H := SOps_fun y) a b) (divS a' b').
Proof. unfold at_point. intros <- <-. unfold divS. simpl. change R0 with 0. destruct (Req_EM_T (b y) 0), (Req_EM_T (b y') 0); simpl; auto. Qed.
Definition mod1 k := rel_mod_phys (o1 := SOps_AD n) (o2 := SOps_fun y) (tracks y) k ring1.
Definition mod2 y' k := rel_mod_phys (o1 := SOps_fun y) (at_point (A := R) y') k (ring2 y').

(** Objects that hold numbers: over AlgoDiffType, over functions and over plain numbers. *)
Record rep {A1 AF A} (P : A1 -> AF -> Prop) (Q : list R -> AF -> A -> Prop) (Tr : A1 -> (list R -> A) -> Prop) : Prop := {
  rep_in : forall a f, Tr a f -> exists b, P a b /\ forall y', Q y' b (f y');
  rep_out : forall a b, P a b -> exists f, Tr a f /\ forall y' c, Q y' b c -> c = f y';
  rep_ext : forall a f g, (forall y', f y' = g y') -> Tr a f -> Tr a g;
  rep_get : forall b, exists f, forall y', Q y' b (f y')
}.
Lemma rep_scalar : rep (tracks y) (at_point (A := R)) (tracks y).
Proof.
  split.
  - intros a f H. exists f. split; auto. reflexivity.
  - intros a b H. exists b. split; auto.
  - intros a f g E. now apply tracks_ext.
  - intros b. exists b. reflexivity.
Qed.
Lemma rep_point d : rep (prel (tracks y) d) (fun y' => prel (at_point (A := R) y') d) (tracks_point y d).
Proof.
  induction d as [|d IH].
  - split.
    + intros a f _. exists tt. split; [exact I|intros; exact I].
    + intros a b _. exists (fun _ => tt). split; [intros k Hk; lia|]. intros y' [] _. reflexivity.
    + intros a f g _ _ k Hk. lia.
    + intros b. exists (fun _ => tt). intros; exact I.
  - split.
    + intros (a & p) f H. destruct (rep_in _ _ _ IH p (fun y' => snd (f y'))) as (b & B1 & B2).
      { intros k Hk. exact (H (S k) (proj1 (Nat.succ_lt_mono _ _) Hk)). }
      exists (fun y' => fst (f y'), b). split; [split; auto|].
      * exact (H 0%nat (Nat.lt_0_succ d)).
      * intros y'. split; [reflexivity|]. apply B2.
    + intros (a & p) (b & q) (H1 & H2). simpl in H1, H2. destruct (rep_out _ _ _ IH p q H2) as (f & F1 & F2).
      exists (fun y' => (b y', f y')). split.
      * intros [|k] Hk; simpl; auto. apply F1. lia.
      * intros y' (c & r) (K1 & K2). simpl in K1, K2. unfold at_point in K1. rewrite (F2 _ _ K2). subst c. reflexivity.
    + intros a f g E H k Hk. eapply tracks_ext; [|apply (H k Hk)]. intros y'. simpl. now rewrite E.
    + intros (b & q). destruct (rep_get _ _ _ IH q) as (f & F). exists (fun y' => (b y', f y')). intros y'. split; [reflexivity|apply F].
Qed.
Lemma rep_phys k : rep (vrel (tracks y) k) (fun y' => vrel (at_point (A := R) y') k) (tracks_phys y k).
Proof. destruct k; [apply rep_point|apply rep_scalar]. Qed.

Section Lists.
Context {A1 AF A : Type} {P : A1 -> AF -> Prop} {Q : list R -> AF -> A -> Prop} {Tr : A1 -> (list R -> A) -> Prop}.
Context (H : rep P Q Tr).
Lemma rep_list : rep (Forall2 P) (fun y' => Forall2 (Q y')) (tracks_list Tr).
Proof.
  split.
  - intros l. induction l as [|a l IH]; intros f (L & T).
    + exists []. split; auto. intros y'. specialize (L y'). destruct (f y'); [constructor|discriminate].
    + assert (Hh : exists z : A, True) by (specialize (L []); destruct (f []) as [|z t]; [discriminate|exists z; auto]).
      destruct Hh as (z & _).
      destruct (rep_in _ _ _ H a (fun y' => nth 0 (f y') z)) as (b & B1 & B2); [now apply T|].
      destruct (IH (fun y' => tl (f y'))) as (m & M1 & M2).
      { split; [intros y'; specialize (L y'); destruct (f y'); simpl in *; lia|].
        intros i a' z' E. eapply (rep_ext _ _ _ H); [|apply (T (S i) a' z' E)]. intros y'. cbv beta. destruct (f y'); destruct i; reflexivity. }
      exists (b :: m). split; [constructor; auto|]. intros y'. specialize (B2 y'). specialize (M2 y'). specialize (L y').
      destruct (f y') as [|c t]; [discriminate|]. simpl in B2, M2. constructor; auto.
  - intros l m F. induction F as [|a b l m H1 H2 (f & (L & T) & F2)].
    + exists (fun _ => []). split; [split; auto; intros [|i]; discriminate|]. intros y' c C. inversion C; auto.
    + destruct (rep_out _ _ _ H a b H1) as (g & G1 & G2). exists (fun y' => g y' :: f y'). split; [split|].
      * intros y'. simpl. now rewrite L.
      * intros [|i] a' z E; simpl in *; [injection E as <-; exact G1|]. now apply T.
      * intros y' c C. inversion C; subst. f_equal; [now apply G2|now apply F2].
  - intros l f g E (L & T). split; [intros; now rewrite <- E|]. intros i a z N.
    eapply (rep_ext _ _ _ H); [|apply (T i a z N)]. intros. simpl. now rewrite E.
  - intros m. induction m as [|b m (f & F)]; [exists (fun _ => []); auto|]. destruct (rep_get _ _ _ H b) as (g & G).
    exists (fun y' => g y' :: f y'). auto.
Qed.
Lemma rep_spline : rep (srel P) (fun y' => srel (Q y')) (tracks_spline Tr).
Proof.
  split.
  - intros s f (S & T). destruct (rep_in _ _ _ rep_list _ _ T) as (m & M1 & M2).
    exists (mkSpline (degrees s) (number_of_control_points s) (index_offsets s) m). split; [split; auto|].
    intros y'. destruct (S y') as (D1 & D2 & D3). split; simpl; auto.
  - intros s t [D1 D2 D3 D4]. destruct (rep_out _ _ _ rep_list _ _ D4) as (f & T & F).
    exists (fun y' => mkSpline (degrees s) (number_of_control_points s) (index_offsets s) (f y')). split; [split; auto|].
    intros y' c [E1 E2 E3 E4]. destruct c as [e1 e2 e3 e4]. simpl in *. rewrite (F _ _ E4). congruence.
  - intros s f g E (S & T). split; [intros; rewrite <- E; apply S|]. eapply (rep_ext _ _ _ rep_list); [|exact T].
    intros y'. simpl. now rewrite E.
  - intros s. destruct (rep_get _ _ _ rep_list (control_points s)) as (f & F).
    exists (fun y' => mkSpline (degrees s) (number_of_control_points s) (index_offsets s) (f y')). intros y'. split; simpl; auto.
Qed.
End Lists.
Section Rationals.
Context {A1 AF A : Type} {P : A1 -> AF -> Prop} {Q : list R -> AF -> A -> Prop} {Tr : A1 -> (list R -> A) -> Prop}.
Context {B1 BF B : Type} {PT : B1 -> BF -> Prop} {QT : list R -> BF -> B -> Prop} {TrT : B1 -> (list R -> B) -> Prop}.
Context (H : rep P Q Tr) (HT : rep PT QT TrT).
Lemma rep_rspline : rep (rrel PT P) (fun y' => rrel (QT y') (Q y')) (tracks_rspline TrT Tr).
Proof.
  split.
  - intros r f (U & W). destruct (rep_in _ _ _ (rep_spline H) _ _ U) as (u & U1 & U2).
    destruct (rep_in _ _ _ (rep_spline HT) _ _ W) as (w & W1 & W2). exists (mkR u w). split; [split; auto|].
    intros y'. split; simpl; [apply U2|apply W2].
  - intros r t [U W]. destruct (rep_out _ _ _ (rep_spline H) _ _ U) as (u & U1 & U2).
    destruct (rep_out _ _ _ (rep_spline HT) _ _ W) as (w & W1 & W2). exists (fun y' => mkR (u y') (w y')). split; [split; auto|].
    intros y' [cu cw] [E1 E2]. simpl in E1, E2. now rewrite (U2 _ _ E1), (W2 _ _ E2).
  - intros r f g E (U & W). split; [eapply (rep_ext _ _ _ (rep_spline H)); [|exact U]|eapply (rep_ext _ _ _ (rep_spline HT)); [|exact W]];
      intros y'; simpl; now rewrite E.
  - intros r. destruct (rep_get _ _ _ (rep_spline H) (weighted_spline r)) as (u & U).
    destruct (rep_get _ _ _ (rep_spline HT) (weight_function r)) as (w & W). exists (fun y' => mkR (u y') (w y')). intros y'. split; [apply U|apply W].
Qed.
End Rationals.

Lemma carries_of {A1 AF A} {P : A1 -> AF -> Prop} {Q : list R -> AF -> A -> Prop} {Tr} (H : rep P Q Tr) m mF g :
  rres P m mF -> (forall y', rres (Q y') mF (g y')) -> carries Tr m g.
Proof.
  intros H1 H2. destruct m, mF; simpl in H1; try contradiction; simpl.
  2-6: intros y'; specialize (H2 y'); destruct (g y'); simpl in H2; try contradiction; auto.
  destruct (rep_out _ _ _ H _ _ H1) as (f & F1 & F2). exists f. split; auto. intros y'. specialize (H2 y').
  destruct (g y'); simpl in H2; try contradiction. now rewrite (F2 _ _ H2).
Qed.
Lemma carries_at_of {A1 AF A} {P : A1 -> AF -> Prop} {Q : list R -> AF -> A -> Prop} {Tr} (H : rep P Q Tr) m mF g :
  rres P m mF -> rres (Q y) mF (g y) -> (forall y', wres (Q y') mF (g y')) -> carries_at y Tr m g.
Proof.
  intros H1 H2 H3. destruct m, mF; simpl in H1; try contradiction; simpl.
  2-6: destruct (g y); simpl in H2; try contradiction; auto.
  destruct (rep_out _ _ _ H _ _ H1) as (f & F1 & F2). exists f. split; [|split; auto].
  - destruct (g y); simpl in H2; try contradiction. now rewrite (F2 _ _ H2).
  - intros y' e E. specialize (H3 y'). rewrite E in H3. simpl in H3. now apply F2.
Qed.
End Tracks.
