(** Claims about products, powers and splitting. *)
From Coq Require Import Arith Lia List ZArith NArith Bool Ring Field QArith Qcanon.
From Verif Require Import Prelude Scalar Spec SpecSpline Sums Order Coord ModelBasis ModelSpline ModelPoint
  Examples ProofIndex ProofBasis ProofEval ProofElevate ProofUnique ClaimsA ProofArith ClaimsB ProofCube ProofMul
  ProofSplit.
Import ListNotations.
Local Open Scope nat_scope.

Lemma mul_value {T V1 V2 V3 : Type} {o : SOps T} {F : SField T}
  {o1 : VOps T V1} {o2 : VOps T V2} {o3 : VOps T V3} {M1 : VMod T V1} {M2 : VMod T V2} {M3 : VMod T V3}
  (pmul : V1 -> V2 -> V3) {B : Bilinear pmul} (MAXB : nat) (HB : MAXB <= 68)
  (P : spline V1) (Q : spline V2) :
  wf P -> wf Q -> length (degrees Q) = length (degrees P) ->
  Forall (fun p => p < MAXB) (map2 Nat.add (degrees P) (degrees Q)) ->
  exists r, spline_mul MAXB pmul P Q = Ok r /\ wf r /\
    degrees r = map2 Nat.add (degrees P) (degrees Q) /\
    forall xs : list T, length xs = length (degrees P) ->
      exists a b, Evaluate P xs = Ok a /\ Evaluate Q xs = Ok b /\ Evaluate r xs = Ok (pmul a b).
Proof.
  intros HP HQ HL HF. destruct (spline_mul_ok pmul MAXB HB P Q HP HQ HL HF) as (r & E & Hr & Hd & HV).
  exists r. do 3 (split; [auto|]). intros xs HX.
  exists (value_at P xs), (value_at Q xs). rewrite !Evaluate_value; auto; try congruence.
  2:{ rewrite Hd, length_map2_add; auto. }
  rewrite HV by auto. auto.
Qed.

Lemma c20_product_scalar_scalar : forall (T : Type) (o : SOps T) (F : SField T) (MAXB : nat) (P Q : spline T),
  MAXB <= 68 -> wf P -> wf Q -> length (degrees Q) = length (degrees P) ->
  Forall (fun p => p < MAXB) (map2 Nat.add (degrees P) (degrees Q)) ->
  exists r : spline T, spline_mul MAXB (fun a b => smul a b) P Q = Ok r /\ wf r /\
    degrees r = map2 Nat.add (degrees P) (degrees Q) /\
    forall xs : list T, length xs = length (degrees P) ->
      exists a b, Evaluate P xs = Ok a /\ Evaluate Q xs = Ok b /\ Evaluate r xs = Ok (smul a b).
Proof. intros. apply mul_value; auto. exact Bilinear_ss. Qed.

Lemma c20_product_point_scalar : forall (T V : Type) (o : SOps T) (ov : VOps T V) (F : SField T) (M : VMod T V)
  (MAXB : nat) (P : spline V) (Q : spline T),
  MAXB <= 68 -> wf P -> wf Q -> length (degrees Q) = length (degrees P) ->
  Forall (fun p => p < MAXB) (map2 Nat.add (degrees P) (degrees Q)) ->
  exists r : spline V, spline_mul MAXB (fun p c => vscale c p) P Q = Ok r /\ wf r /\
    degrees r = map2 Nat.add (degrees P) (degrees Q) /\
    forall xs : list T, length xs = length (degrees P) ->
      exists p c, Evaluate P xs = Ok p /\ Evaluate Q xs = Ok c /\ Evaluate r xs = Ok (vscale c p).
Proof. intros. apply (mul_value (fun (p : V) (c : T) => vscale c p)); auto. Qed.

Lemma c20_product_scalar_point : forall (T V : Type) (o : SOps T) (ov : VOps T V) (F : SField T) (M : VMod T V)
  (MAXB : nat) (P : spline T) (Q : spline V),
  MAXB <= 68 -> wf P -> wf Q -> length (degrees Q) = length (degrees P) ->
  Forall (fun p => p < MAXB) (map2 Nat.add (degrees P) (degrees Q)) ->
  exists r : spline V, spline_mul MAXB (fun c p => vscale c p) P Q = Ok r /\ wf r /\
    degrees r = map2 Nat.add (degrees P) (degrees Q) /\
    forall xs : list T, length xs = length (degrees P) ->
      exists c p, Evaluate P xs = Ok c /\ Evaluate Q xs = Ok p /\ Evaluate r xs = Ok (vscale c p).
Proof. intros. apply (mul_value (fun (c : T) (p : V) => vscale c p)); auto. Qed.

Lemma c20_product_dot : forall (T : Type) (o : SOps T) (F : SField T) (MAXB d : nat) (P Q : spline (point T d)),
  MAXB <= 68 -> wf P -> wf Q -> length (degrees Q) = length (degrees P) ->
  Forall (fun p => p < MAXB) (map2 Nat.add (degrees P) (degrees Q)) ->
  exists r : spline T,
    spline_mul MAXB (fun p q => ssum d (fun k => smul (coord d p k) (coord d q k))) P Q = Ok r /\ wf r /\
    degrees r = map2 Nat.add (degrees P) (degrees Q) /\
    forall xs : list T, length xs = length (degrees P) ->
      exists p q, Evaluate P xs = Ok p /\ Evaluate Q xs = Ok q /\
        exists c, point_dot p q = Ok c /\ Evaluate r xs = Ok c.
Proof.
  intros T o F MAXB d P Q HB HP HQ HL HF.
  destruct (mul_value (dot d) MAXB HB P Q HP HQ HL HF) as (r & E & Hr & Hd & HV).
  exists r. split; [exact E|]. do 2 (split; [auto|]). intros xs HX.
  destruct (HV xs HX) as (p & q & E1 & E2 & E3). exists p, q. do 2 (split; [auto|]).
  exists (dot d p q). split; [apply dot_loop|exact E3].
Qed.

Lemma c23_raise_power : forall (T : Type) (o : SOps T) (F : SField T) (MAXB : nat) (s : spline T) (n : nat),
  MAXB <= 68 -> wf s -> Forall (fun p => n * p < MAXB) (degrees s) ->
  exists r, RaisePower MAXB s n = Ok r /\ wf r /\ degrees r = map (Nat.mul n) (degrees s) /\
    forall xs : list T, length xs = length (degrees s) ->
      exists x, Evaluate s xs = Ok x /\ Evaluate r xs = Ok (sprod (repeat x n)).
Proof.
  intros T o F MAXB s n HB Hw HF. destruct (RaisePower_ok MAXB HB s n Hw HF) as (r & E & Hr & Hd & HV).
  exists r. do 3 (split; [auto|]). intros xs HX. exists (value_at s xs).
  rewrite !Evaluate_value; auto.
  2:{ rewrite Hd, map_length. auto. }
  split; auto. rewrite HV by auto. f_equal. clear. induction n; simpl; auto. rewrite IHn. auto.
Qed.

(** ** Splitting *)
Lemma c32_split : forall (T V : Type) (o : SOps T) (ov : VOps T V) (F : SField T) (M : VMod T V) (O : SOrder T)
  (s : spline V) (x : T) (k : nat),
  wf s -> k < length (degrees s) -> slt s0 x -> slt x s1 ->
  exists a b, SplitAtPosition s x k = Ok [a; b] /\ wf a /\ wf b /\
    degrees a = degrees s /\ degrees b = degrees s /\
    forall xs : list T, length xs = length (degrees s) ->
      Evaluate a xs = Evaluate s (upd_list xs k (smul x (nth k xs s0))) /\
      Evaluate b xs = Evaluate s (upd_list xs k (sadd x (smul (ssub s1 x) (nth k xs s0)))).
Proof.
  intros T V o ov F M O s x k Hw Hk H0 H1.
  destruct (Split_values s x k Hw Hk H0 H1) as (a & b & E & Wa & Wb & Da & Db & HV).
  exists a, b. do 5 (split; [auto|]). intros xs HX. destruct (HV xs HX) as (V1 & V2).
  rewrite !Evaluate_value; auto; try congruence; try (rewrite length_upd; auto).
  rewrite V1, V2. auto.
Qed.

Lemma c32_split_range : forall (T V : Type) (o : SOps T) (ov : VOps T V) (s : spline V) (x : T) (k : nat),
  ~ (slt s0 x /\ slt x s1) -> SplitAtPosition s x k = Throw.
Proof. intros. apply Split_throw; auto. Qed.

(** Bounds of the pieces: 0, planes, 1. *)
Lemma piece_eval {T V : Type} {o : SOps T} {ov : VOps T V} {F : SField T} {M : VMod T V}
  (s b : spline V) k l r : wf s -> piece s b k l r ->
  forall xs : list T, length xs = length (degrees s) ->
    Evaluate b xs = Evaluate s (upd_list xs k (sadd l (smul (ssub r l) (nth k xs s0)))).
Proof.
  intros Hw (Wb & Db & HV) xs HX. rewrite !Evaluate_value; auto; try congruence.
  - rewrite HV; auto.
  - now rewrite length_upd.
Qed.

Section Planes.
Context {T V : Type} {o : SOps T} {ov : VOps T V} {F : SField T} {M : VMod T V} {O : SOrder T}.
Add Field Tfield : (@sf_th T o F).

Lemma SplitAtPositions_step (s : spline V) planes k : is_sorted planes = true -> planes <> [] ->
  SplitAtPositions s planes k =
  (do split <- SplitAtPosition s (nth 0 planes s0) k;
   do x <- get split 0;
   do '(out, split) <- for_up 1 (length planes - 1) (split_step planes k) ([x], split);
   do x <- get split 1;
   Ok (out ++ [x])).
Proof.
  intros HS HN. unfold SplitAtPositions. rewrite HS. cbn [negb].
  destruct (Nat.eqb_spec (length planes) 0) as [E|E]; [destruct planes; [congruence|discriminate]|].
  rewrite (get_ok s0) by lia. cbn [bind]. reflexivity.
Qed.

Lemma piece_first (s : spline V) k x : wf s -> k < length (degrees s) -> slt s0 x -> slt x s1 ->
  exists a b, SplitAtPosition s x k = Ok [a; b] /\ piece s a k s0 x /\ piece s b k x s1.
Proof.
  intros Hw Hk H0 H1. destruct (piece_split s s k s0 x Hk (piece_refl s k Hw Hk) H0 H1) as (a & b & E & PA & PB).
  exists a, b. split; [|auto]. rewrite <- E. f_equal. replace (ssub s1 s0) with (s1 : T) by ring. field. exact s1_neq0.
Qed.

Lemma Positions_ok (s : spline V) planes k : wf s -> k < length (degrees s) ->
  let bounds := s0 :: planes ++ [s1] in
  (forall i, S i < length bounds -> slt (nth i bounds s0) (nth (S i) bounds s0)) ->
  exists parts, SplitAtPositions s planes k = Ok parts /\ length parts = S (length planes) /\
    forall i, i <= length planes -> piece s (nth i parts s) k (nth i bounds s0) (nth (S i) bounds s0).
Proof.
  intros Hw Hk bounds HB.
  assert (HLb : length bounds = S (S (length planes))).
  { unfold bounds. simpl. rewrite app_length. simpl. lia. }
  assert (HN : planes = [] \/ planes <> []) by (destruct planes; [left; reflexivity|right; discriminate]).
  destruct HN as [EP|HN].
  { subst bounds planes. exists [s]. split; [reflexivity|]. split; [reflexivity|]. intros i Hi. simpl in Hi.
    replace i with 0 by lia. apply (piece_refl s k Hw Hk). }
  assert (Hpos : 0 < length planes) by (destruct planes; [congruence|simpl; lia]).
  assert (Hnth : forall i, i < length planes -> nth (S i) bounds s0 = nth i planes s0).
  { intros i Hi. unfold bounds. cbn [nth]. rewrite app_nth1; auto. }
  assert (Hlast : nth (S (length planes)) bounds s0 = s1).
  { unfold bounds. cbn [nth]. rewrite app_nth2 by lia. rewrite Nat.sub_diag. reflexivity. }
  assert (Hinc : forall i, 1 <= i < length planes -> slt (nth (i - 1) planes s0) (nth i planes s0)).
  { intros i Hi. rewrite <- !Hnth by lia. replace (S (i - 1)) with i by lia. apply HB. lia. }
  assert (H1 : forall j i, i + j + 1 = length planes -> slt (nth i planes s0) s1).
  { induction j; intros i Hi.
    - rewrite <- Hnth, <- Hlast by lia. replace (length planes) with (S i) by lia. apply HB. lia.
    - eapply so_trans; [|apply (IHj (S i)); lia]. specialize (Hinc (S i) ltac:(lia)).
      replace (S i - 1) with i in Hinc by lia. exact Hinc. }
  rewrite SplitAtPositions_step; auto.
  2:{ apply is_sorted_lt; auto. }
  destruct (piece_first s k (nth 0 planes s0)) as (a & b & E & PA & PB); auto.
  { rewrite <- Hnth by lia. apply (HB 0). lia. }
  { apply (H1 (length planes - 1)). lia. }
  rewrite E. cbn [bind get nth_error].
  destruct (split_loop_ok s planes k Hk (length planes - 1) 1 [a] a b) as (parts & a' & b' & E2 & L & PB' & PP).
  { lia. } { lia. } { exact PB. }
  { intros i Hi. split; [apply Hinc; lia|apply (H1 (length planes - 1 - i)); lia]. }
  rewrite E2. cbn [bind get nth_error].
  exists (([a] ++ parts) ++ [b']). split; [reflexivity|]. split; [rewrite !app_length; simpl; lia|].
  intros i Hi. destruct i as [|i].
  - rewrite Hnth by lia. exact PA.
  - cbn [app nth]. rewrite Hnth by lia.
    destruct (Nat.eq_dec i (length planes - 1)) as [->|Hni].
    + rewrite app_nth2 by lia. replace (length planes - 1 - length parts) with 0 by lia. cbn [nth].
      replace (S (S (length planes - 1))) with (S (length planes)) by lia. rewrite Hlast.
      replace (length planes - 1) with (1 + (length planes - 1) - 1) by lia. exact PB'.
    + rewrite app_nth1 by lia. rewrite Hnth by lia. specialize (PP i ltac:(lia)).
      replace (1 + i - 1) with i in PP by lia. exact PP.
Qed.

Lemma Positions_throw (s : spline V) planes k : wf s -> k < length (degrees s) -> planes <> [] ->
  let bounds := s0 :: planes ++ [s1] in
  ~ (forall i, S i < length bounds -> slt (nth i bounds s0) (nth (S i) bounds s0)) ->
  SplitAtPositions s planes k = Throw.
Proof.
  intros Hw Hk HN bounds HB.
  destruct (is_sorted planes) eqn:ES; [|unfold SplitAtPositions; rewrite ES; reflexivity].
  rewrite SplitAtPositions_step by auto.
  assert (Hpos : 0 < length planes) by (destruct planes; [congruence|simpl; lia]).
  destruct (sltb s0 (nth 0 planes s0)) eqn:E0.
  2:{ rewrite Split_throw; auto. intros (A & _). unfold slt in A. congruence. }
  destruct (sltb (nth 0 planes s0) s1) eqn:E1.
  2:{ rewrite Split_throw; auto. intros (_ & A). unfold slt in A. congruence. }
  destruct (piece_first s k (nth 0 planes s0)) as (a & b & E & PA & PB); auto.
  rewrite E. cbn [bind get nth_error].
  rewrite (split_loop_throw s planes k Hk (length planes - 1) 1 [a] a b); auto; try lia.
  assert (HD : forall n, n <= length planes - 1 ->
    (forall i, 1 <= i < 1 + n -> slt (nth (i - 1) planes s0) (nth i planes s0) /\ slt (nth i planes s0) s1) \/
    (exists i, 1 <= i < 1 + n /\ ~ (slt (nth (i - 1) planes s0) (nth i planes s0) /\ slt (nth i planes s0) s1))).
  { induction n; intros Hn; [left; intros; lia|]. destruct IHn as [A|(i & Hi & A)]; [lia| |right; exists i; split; [lia|auto]].
    destruct (sltb (nth (S n - 1) planes s0) (nth (S n) planes s0)) eqn:EA.
    2:{ right. exists (S n). split; [lia|]. unfold slt. intros (X & _). congruence. }
    destruct (sltb (nth (S n) planes s0) s1) eqn:EB.
    2:{ right. exists (S n). split; [lia|]. unfold slt. intros (_ & X). congruence. }
    left. intros i Hi. destruct (Nat.eq_dec i (S n)) as [->|]; [split; assumption|apply A; lia]. }
  destruct (HD (length planes - 1)) as [A|A]; auto.
  exfalso. apply HB. intros i Hi. unfold bounds in *. simpl in Hi. rewrite app_length in Hi. simpl in Hi.
  destruct i as [|i].
  - cbn [nth]. rewrite app_nth1 by lia. exact E0.
  - cbn [nth]. rewrite (app_nth1 _ _ s0 (n := i)) by lia.
    destruct (Nat.eq_dec (S i) (length planes)) as [Heq|].
    + rewrite app_nth2 by lia. replace (S i - length planes) with 0 by lia. cbn [nth].
      destruct i; [exact E1|]. apply A. lia.
    + rewrite app_nth1 by lia. replace i with (S i - 1) at 1 by lia. apply A. lia.
Qed.
End Planes.

Lemma c33_multi_split : forall (T V : Type) (o : SOps T) (ov : VOps T V) (F : SField T) (M : VMod T V)
  (O : SOrder T) (s : spline V) (planes : list T) (k : nat),
  wf s -> k < length (degrees s) ->
  let bounds := s0 :: planes ++ [s1] in
  (forall i, S i < length bounds -> slt (nth i bounds s0) (nth (S i) bounds s0)) ->
  exists parts, SplitAtPositions s planes k = Ok parts /\ length parts = S (length planes) /\
    forall i, i <= length planes -> exists b, nth_error parts i = Some b /\ wf b /\ degrees b = degrees s /\
      forall xs : list T, length xs = length (degrees s) ->
        Evaluate b xs = Evaluate s (upd_list xs k
          (sadd (nth i bounds s0) (smul (ssub (nth (S i) bounds s0) (nth i bounds s0)) (nth k xs s0)))).
Proof.
  intros T V o ov F M O s planes k Hw Hk bounds HB.
  destruct (Positions_ok s planes k Hw Hk HB) as (parts & E & L & HP).
  exists parts. do 2 (split; [auto|]). intros i Hi. specialize (HP i Hi).
  exists (nth i parts s). split; [apply nth_error_nth'; lia|].
  split; [apply HP|]. split; [apply HP|]. exact (piece_eval s _ k _ _ Hw HP).
Qed.

Lemma c33_multi_split_empty : forall (T V : Type) (o : SOps T) (ov : VOps T V) (s : spline V) (k : nat),
  SplitAtPositions s [] k = Ok [s].
Proof. reflexivity. Qed.

Lemma c33_multi_split_bad : forall (T V : Type) (o : SOps T) (ov : VOps T V) (F : SField T) (M : VMod T V)
  (O : SOrder T) (s : spline V) (planes : list T) (k : nat),
  wf s -> k < length (degrees s) -> planes <> [] ->
  let bounds := s0 :: planes ++ [s1] in
  ~ (forall i, S i < length bounds -> slt (nth i bounds s0) (nth (S i) bounds s0)) ->
  SplitAtPositions s planes k = Throw.
Proof. intros. apply Positions_throw; auto. Qed.
